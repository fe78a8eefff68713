(** What a user expects of a window of doubles, in terms of the real values of its points. *)
From Coq Require Import Reals.
From Flocq Require Import Core.Core IEEE754.BinarySingleNaN.
From Verif Require Import FloatModel.
Open Scope R_scope.

Notation fin x := (is_finite x = true).
(** the real value of a finite float *)
Notation v x := (B2R x).

Definition two40 : R := 1099511627776.
(** far from overflow and underflow *)
Definition small_step (d : R) : Prop := bpow radix2 (-1000) <= d <= bpow radix2 900.

(** Finite arguments, and times that are at most 2^40 steps away from zero. *)
Record windowable (dt stop start : b64) : Prop := {
  w_dt : fin dt;
  w_stop : fin stop;
  w_start : fin start;
  w_step : small_step (v dt);
  w_stop_le : Rabs (v stop) <= two40 * v dt;
  w_start_le : Rabs (v start) <= two40 * v dt }.

(** [x] is a double closest to the real [r] *)
Definition closest (x : b64) (r : R) : Prop :=
  forall y : b64, fin y -> Rabs (v x - r) <= Rabs (v y - r).
