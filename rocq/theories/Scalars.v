(** Scalars: an arbitrary field of characteristic 0 (the exact-arithmetic
    idealisation of floats), with the executable instance [Qc]. *)
From Coq Require Import Field Ring QArith Qcanon List Lia.
Import ListNotations.

Record Fld := mkFld {
  F :> Type;
  f0 : F; f1 : F;
  fadd : F -> F -> F; fmul : F -> F -> F; fsub : F -> F -> F; fopp : F -> F;
  fdiv : F -> F -> F; finv : F -> F;
  f_th : field_theory f0 f1 fadd fmul fsub fopp fdiv finv (@eq F);
  f_char0 : forall n : nat, Nat.iter (S n) (fadd f1) f0 <> f0 }.

Arguments f0 {f}. Arguments f1 {f}. Arguments fadd {f}. Arguments fmul {f}.
Arguments fsub {f}. Arguments fopp {f}. Arguments fdiv {f}. Arguments finv {f}.

Declare Scope fld_scope.
Delimit Scope fld_scope with fld.
Infix "+" := fadd : fld_scope.
Infix "*" := fmul : fld_scope.
Infix "-" := fsub : fld_scope.
Infix "/" := fdiv : fld_scope.
Notation "- x" := (fopp x) : fld_scope.
Notation "0" := f0 : fld_scope.
Notation "1" := f1 : fld_scope.
Bind Scope fld_scope with F.

(** natural numbers as scalars *)
Fixpoint fnat {K : Fld} (n : nat) : K :=
  match n with O => f0 | S m => fadd f1 (fnat m) end.

Fixpoint fpow {K : Fld} (x : K) (n : nat) : K :=
  match n with O => f1 | S m => fmul x (fpow x m) end.

Lemma fnat_iter (K : Fld) n : @fnat K n = Nat.iter n (fadd f1) f0.
Proof. induction n; simpl; congruence. Qed.

Lemma fnat_neq0 (K : Fld) n : n <> O -> @fnat K n <> f0.
Proof. intros H. destruct n; [congruence|]. rewrite fnat_iter. apply f_char0. Qed.

Lemma Qc_char0 : forall n : nat, Nat.iter (S n) (Qcplus 1) 0%Qc <> 0%Qc.
Proof.
  intros n.
  assert (H : forall m : nat, (0 <= Nat.iter m (Qcplus 1) 0)%Qc).
  { induction m; simpl; [apply Qcle_refl|].
    rewrite <- (Qcplus_0_l 0) at 1. apply Qcplus_le_compat; [discriminate|exact IHm]. }
  simpl. intros E. specialize (H n).
  assert (G : (1 <= 0)%Qc).
  { rewrite <- E. rewrite <- (Qcplus_0_r 1) at 1.
    apply Qcplus_le_compat; [apply Qcle_refl|exact H]. }
  apply G. reflexivity.
Qed.

Definition QcF : Fld := mkFld Qc 0%Qc 1%Qc Qcplus Qcmult Qcminus Qcopp Qcdiv Qcinv Qcft Qc_char0.

(** rational constants for the executable examples *)
Definition qc (p : Z) (q : positive) : QcF := Q2Qc (p # q).
Definition qeq : forall a b : QcF, {a = b} + {a <> b} := Qc_eq_dec.
