(** Vocabulary of property C113: smooth solutions of linear evolution equations, and winds that vary. *)
From Coq Require Import List Arith Reals String.
From Verif Require Import PyBase FieldFacts FDReal FDExprSpec ConsistSpec AdvectSpec.
Import ListNotations.
Open Scope R_scope.

(** [u m t a] is the derivative of order [m] in time and of multi-index [a] in space, at the time [t], of a
    function that is periodic, smooth and satisfies D_t u = A u between [t0] and [t1] *)
Record evolution (n : nat) (lengths : list R) (A : (multi -> point -> R) -> point -> R) (t0 t1 : R) (u : nat -> R -> multi -> point -> R) : Prop := {
  ev_space : forall m t, t0 <= t <= t1 -> derivatives_of n (u m t);
  ev_time : forall m a t p, t0 <= t <= t1 -> derivable_pt_lim (fun s => u m s a p) t (u (S m) t a p);
  ev_equation : forall t p, t0 <= t <= t1 -> u 1%nat t none p = A (u O t) p;
  ev_period : forall t, t0 <= t <= t1 -> periodic lengths (u O t none);
  ev_bounded : forall m a, exists B, forall t p, t0 <= t <= t1 -> Rabs (u m t a p) <= B }.

(** - sum_k w_k D_k U, the wind [w k] along the axis [k] *)
Definition carried_by (n : nat) (w : nat -> point -> R) (U : multi -> point -> R) (p : point) : R :=
  - fold_right Rplus 0 (map (fun k => w k p * U (inc k none) p) (seq 0 n)).

(** winds that are periodic, at most [V k], with derivatives at most [L k] along their own axes *)
Record variable_winds (n : nat) (lengths : list R) (w : nat -> point -> R) (V L : nat -> R) : Prop := {
  vw_period : forall k, (k < n)%nat -> periodic lengths (w k);
  vw_speed : forall k p, (k < n)%nat -> Rabs (w k p) <= V k;
  vw_shear : exists d : nat -> point -> R, forall k p, (k < n)%nat ->
    derivable_pt_lim (fun s => w k (@at_coord RF p k s)) (p k) (d k p) /\ Rabs (d k p) <= L k }.

(** the arrays of the values of the winds at the points of the grid *)
Definition wind_arrays (n : nat) (dx : list R) (w : nat -> point -> R) : list (list nat -> R) :=
  map (fun k => sample dx (w k)) (seq 0 n).

(** the rate of growth of the norm: half the sum of the shears, amplified by the scheme *)
Definition growth (n : nat) (L : nat -> R) (tau : R) : R :=
  let s := fold_right Rplus 0 (map L (seq 0 n)) / 2 in s * exp (2 * sqrt 2 + tau * s).
