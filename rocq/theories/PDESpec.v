(** What the parts of a system of equations are, said of the equations themselves. *)
From Coq Require Import List Arith Bool String QArith.
From Verif Require Import PyBase SymModel PDEModel.
Import ListNotations.
Close Scope Q_scope.
Open Scope nat_scope.
Open Scope string_scope.
Open Scope list_scope.

(** x stands somewhere in one of the equations / in one of the right-hand sides *)
Definition occurs (x : sx) (eqs : list equation) : Prop :=
  exists l r, In (l, r) eqs /\ (In x (subterms l) \/ In x (subterms r)).
Definition occurs_rhs (x : sx) (eqs : list equation) : Prop :=
  exists l r, In (l, r) eqs /\ In x (subterms r).

Definition a_function (x : sx) : Prop := (exists f l, x = SApp f l) \/ (exists e, x = SEx e).
Definition a_symbol (x : sx) : Prop := exists k s, x = SSym k s.
Definition a_trainable (x : sx) : Prop := exists s, x = SSym Trainable s.

(** differentiated with respect to time somewhere in the equations (time being the first
    variable of the derivative) *)
Definition time_differentiated (f : sx) (eqs : list equation) : Prop :=
  exists n v, occurs (SDer f (("t", n) :: v)) eqs.

(** every derivative has a variable *)
Definition proper (eqs : list equation) : Prop := forall f v, occurs (SDer f v) eqs -> v <> [].

Definition exactly_one (P Q R : Prop) : Prop :=
  (P /\ ~ Q /\ ~ R) \/ (~ P /\ Q /\ ~ R) \/ (~ P /\ ~ Q /\ R).
