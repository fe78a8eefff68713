(** Second derivatives along a direction, inverses.  Specification, not code of /repo. *)
From Coq Require Import Reals.
From Verif Require Import CorrModel.
Open Scope R_scope.

(** the point x + t v *)
Definition along (x v : vector) (t : R) : vector := fun i => x i + t * v i.
(** f has the first derivative a and the second derivative b at 0 *)
Definition expansion (f : R -> R) (a b : R) : Prop :=
  exists f', (forall t, derivable_pt_lim f t (f' t)) /\ f' 0 = a /\ derivable_pt_lim f' 0 b.
Definition delta (i j : nat) : R := if Nat.eqb i j then 1 else 0.
Definition right_inverse (n : nat) (a b : matrix) : Prop := forall i j, (i < n)%nat -> (j < n)%nat -> rsum n (fun k => a i k * b k j) = delta i j.
Definition inverses (n : nat) (a b : matrix) : Prop := right_inverse n a b /\ right_inverse n b a.
(** inv gives a right inverse of the matrices that have an inverse *)
Definition inverting (n : nat) (inv : matrix -> matrix) : Prop := forall a b, inverses n a b -> right_inverse n a (inv a).
