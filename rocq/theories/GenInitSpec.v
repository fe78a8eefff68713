(** What a declared constant is after construction. *)
From Coq Require Import List Bool String.
From Verif Require Import PyBase GenInitModel.
Import ListNotations.
Open Scope string_scope.

(** a keyword argument of a call (keys are distinct) *)
Definition given {V} (kw : kwargs V) (n : string) (a : arg V) : Prop := In (n, a) kw.
(** the declared constant [n] has the value given, nan otherwise *)
Definition constant_value {V} (kw : kwargs V) (n : string) (v : attr V) : Prop :=
  (exists a, given kw n a /\ v = Given a) \/ ((forall a, ~ given kw n a) /\ v = NaN).
