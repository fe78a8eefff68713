(** Meaning of the rules of the substitution tree. *)
From Coq Require Import List Arith ZArith QArith Qcanon Bool String.
From Verif Require Import PyBase PartialOrderModel PartialOrderSpec TreeModel Reynolds.
Import ListNotations.
Close Scope Q_scope.
Open Scope list_scope.

(** D^o a for orders [o] *)
Fixpoint deriv {A : RAlg} (coords : list string) (o : mi) (a : A) : A :=
  match coords, o with
  | c :: cs, z :: o => Nat.iter (Z.to_nat z) (dd c) (deriv cs o a)
  | _, _ => a
  end.

(** E[D^a eps D^b eps] *)
Definition moment {A : RAlg} (coords : list string) (eps : A) (a b : mi) : A :=
  EE (cmul (deriv coords a eps) (deriv coords b eps)).

Definition zq (z : Z) : Qc := Q2Qc (inject_Z z).

Fixpoint expr_value {A : RAlg} (coords : list string) (eps : A) (e : texp) : A :=
  match e with
  | [] => c0
  | (c, ds, k) :: r => cadd (cmul (cq (zq c)) (dds ds (moment coords eps (fst k) (snd k)))) (expr_value coords eps r)
  end.

(** a non-zero multi-index of degree [d] *)
Definition nz_index (n : nat) (d : nat) (o : mi) : Prop := multi_index n (Z.of_nat d) o /\ d <> O.

Definition zero_index (n : nat) : mi := repeat 0%Z n.
