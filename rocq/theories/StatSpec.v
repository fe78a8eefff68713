(** Vocabulary of property C114: ensembles of fields, their mean, variance and aspect tensor, and smooth winds. *)
From Coq Require Import List Arith Reals String.
From Verif Require Import PyBase FieldFacts FDReal FDExprSpec ConsistSpec AdvectSpec WindSpec.
Import ListNotations.
Open Scope R_scope.

(** [N] members [c r] of weights [pi r] *)
Section Ensemble.
  Variables (N : nat) (pi : nat -> R) (c : nat -> R -> point -> R).
  Definition average (x : nat -> R) : R := fold_right Rplus 0 (map (fun r => pi r * x r) (seq 0 N)).
  Definition ens_mean (t : R) (p : point) : R := average (fun r => c r t p).
  Definition ens_error (r : nat) (t : R) (p : point) : R := c r t p - ens_mean t p.
  Definition ens_variance (t : R) (p : point) : R := average (fun r => ens_error r t p * ens_error r t p).
  (** the errors divided by the standard deviation *)
  Definition ens_normal (r : nat) (t : R) (p : point) : R := ens_error r t p / sqrt (ens_variance t p).

  (** [s] is, at every point and between [T0] and [T1], the inverse of the metric tensor, the average of the products
      of the derivatives of the normalized errors along the axes *)
  Definition ens_aspect (n : nat) (T0 T1 : R) (s : nat -> nat -> R -> point -> R) : Prop :=
    exists d : nat -> nat -> R -> point -> R,
      (forall r a t p, (r < N)%nat -> (a < n)%nat -> T0 < t < T1 ->
         derivable_pt_lim (fun x => ens_normal r t (@at_coord RF p a x)) (p a) (d r a t p)) /\
      forall t p a b, T0 < t < T1 -> (a < n)%nat -> (b < n)%nat ->
        fold_right Rplus 0 (map (fun e => average (fun r => d r a t p * d r e t p) * s e b t p) (seq 0 n)) = (if Nat.eqb a b then 1 else 0) /\
        fold_right Rplus 0 (map (fun e => s a e t p * average (fun r => d r e t p * d r b t p)) (seq 0 n)) = (if Nat.eqb a b then 1 else 0).
End Ensemble.

(** winds that do not depend on time: [w k a] is the derivative of multi-index [a] of the wind along the axis [k] *)
Record smooth_winds (n : nat) (lengths : list R) (w : nat -> multi -> point -> R) (V : nat -> R) : Prop := {
  sw_space : forall k, (k < n)%nat -> derivatives_of n (w k);
  sw_period : forall k, (k < n)%nat -> periodic lengths (w k none);
  sw_bounded : forall k a, (k < n)%nat -> exists B, forall p, Rabs (w k a p) <= B;
  sw_speed : forall k p, (k < n)%nat -> Rabs (w k none p) <= V k }.

(** the ensemble between [T0] and [T1]: members carried by the winds, a variance that stays away from 0, a bounded
    aspect tensor [s] *)
Record carried_ensemble (n : nat) (lengths : list R) (w : nat -> multi -> point -> R) (T0 T1 : R) (N : nat) (pi : nat -> R)
    (u : nat -> nat -> R -> multi -> point -> R) (s : nat -> nat -> R -> point -> R) : Prop := {
  ce_members : forall r, (r < N)%nat -> evolution n lengths (carried_by n (fun k => w k none)) T0 T1 (u r);
  ce_variance : exists v, 0 < v /\ forall t p, T0 < t < T1 -> v <= ens_variance N pi (fun r t p => u r O t none p) t p;
  ce_aspect : ens_aspect N pi (fun r t p => u r O t none p) n T0 T1 s;
  ce_bounded : exists B, forall a b t p, (a < n)%nat -> (b < n)%nat -> T0 < t < T1 -> Rabs (s a b t p) <= B }.

(** the pairs a <= b of axes, one row after the other *)
Definition upper (n : nat) : list (nat * nat) := filter (fun p => Nat.leb (fst p) (snd p)) (list_prod (seq 0 n) (seq 0 n)).
(** the field number [i] of the parametric dynamics in aspect: the mean, the variance, the entries a <= b of the aspect tensor *)
Definition statistic (n N : nat) (pi : nat -> R) (c : nat -> R -> point -> R) (s : nat -> nat -> R -> point -> R) (i : nat) (t : R) (p : point) : R :=
  match i with
  | O => ens_mean N pi c t p
  | S O => ens_variance N pi c t p
  | S (S m) => match nth_error (upper n) m with Some (a, b) => s a b t p | None => 0 end
  end.
Definition statistics_count (n : nat) : nat := 2 + List.length (upper n).
(** the root mean square of the differences of the field number [i] of the state with the values of [f] *)
Definition row_error (dx : list R) (shape : list nat) (i : nat) (f : point -> R) (state : list nat -> R) : R :=
  rms_error dx shape f (fun idx => state (i :: tl idx)).
