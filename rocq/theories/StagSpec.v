(** Specification of staggered finite differences on the regular grid. *)
From Coq Require Import List Arith ZArith QArith Qcanon Bool.
From Verif Require Import PyBase Scalars FieldFacts StagModel.
Import ListNotations.
Close Scope Qc_scope. Close Scope Q_scope. Open Scope nat_scope.

(** a multiple of the spacing *)
Definition on_grid (c : coeff) : Prop := match c with Rat q => Qden (this q) = 1%positive | Other _ => False end.
Definition rational (c : coeff) : Prop := match c with Rat _ => True | Other _ => False end.

Section Spec.
  Context {K : Fld}.
  Open Scope fld_scope.
  (** [fn a]: the value of a function at a displaced point; [un]: of the other operators *)
  Fixpoint value (fn : fatom -> K) (un : nat -> K -> K) (e : sexpr) : K :=
    match e with
    | Cst c => c
    | Fn a => fn a
    | Add a b => value fn un a + value fn un b
    | Mul a b => value fn un a * value fn un b
    | Un op e => un op (value fn un e)
    end.

  Variables (x dx : nat -> K) (other : nat -> K).
  (** the point of coordinates x_i + c_i*dx_i *)
  Definition number (c : coeff) : K := match c with Rat q => fz (Qnum (this q)) / fz (Zpos (Qden (this q))) | Other k => other k end.
  Fixpoint point (i : nat) (l : list coeff) : list K :=
    match l with [] => [] | c :: r => x i + number c * dx i :: point (S i) r end.
  Definition here (U : nat -> list K -> K) (a : fatom) : K := U (fst a) (point 0 (snd a)).

  (** n/d steps replaced by n steps, and the value divided by d, for each coordinate *)
  Fixpoint stretched (i : nat) (l : list coeff) : list K :=
    match l with
    | [] => []
    | Rat q :: r => x i + fz (Qnum (this q)) * dx i :: stretched (S i) r
    | Other k :: r => x i + other k * dx i :: stretched (S i) r
    end.
  Fixpoint shared (l : list coeff) : K :=
    match l with
    | [] => 1
    | Rat q :: r => shared r / fz (Zpos (Qden (this q)))
    | Other _ :: r => shared r
    end.
  Definition moved (U : nat -> list K -> K) (a : fatom) : K := shared (snd a) * U (fst a) (stretched 0 (snd a)).
End Spec.
