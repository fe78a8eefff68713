(** Theorems: [Model.window] in binary64 arithmetic (C108). *)
From Coq Require Import List ZArith Bool Reals Lra.
From Flocq Require Import Core.Core IEEE754.BinarySingleNaN.
From Verif Require Import PyBase ForecastModel FloatModel FloatSpec FloatProofs FloatStart FloatCases.
Import ListNotations.
Open Scope R_scope.

(** C108: the rounding errors neither add nor drop a point *)
Theorem C108_length dt stop start n : windowable dt stop start ->
  Rabs (v stop - v start - INR n * v dt) <= v dt / 4 ->
  exists l, fwindow dt stop start = Ok l /\ length l = S n /\ nth_error l 0 = Some start.
Proof. exact (window_length dt stop start n). Qed.

(** C108: a window that ends half a step before it starts is empty *)
Theorem C108_empty dt stop start : windowable dt stop start ->
  v stop <= v start - v dt / 2 -> fwindow dt stop start = Ok [].
Proof. exact (window_empty dt stop start). Qed.

(** C108: a zero step raises, whatever the other two arguments *)
Theorem C108_zero_step dt stop start : is_zero dt = true ->
  fwindow dt stop start = Err ZeroDivisionError.
Proof. exact (window_zero_step dt stop start). Qed.

(** C108: the points; the error grows with the index and with the distance from zero *)
Theorem C108_points dt stop start n l i t : windowable dt stop start ->
  Rabs (v stop - v start - INR n * v dt) <= v dt / 4 ->
  fwindow dt stop start = Ok l -> nth_error l i = Some t ->
  fin t /\ Rabs (v t - (v start + INR i * v dt))
           <= 10 / 9007199254740992 * (INR i * (Rabs (v start) + v dt)).
Proof. exact (window_points dt stop start n l i t). Qed.

(** C108: with the default start each point is the best possible *)
Theorem C108_closest dt stop start n l i t : windowable dt stop start -> v start = 0 ->
  Rabs (v stop - INR n * v dt) <= v dt / 4 ->
  fwindow dt stop start = Ok l -> nth_error l i = Some t ->
  fin t /\ closest t (INR i * v dt).
Proof. exact (window_closest dt stop start n l i t). Qed.

(** C108: increasing, and the step given to the time scheme is [dt] up to rounding *)
Theorem C108_steps dt stop start n l i t t' : windowable dt stop start ->
  Rabs (v stop - v start - INR n * v dt) <= v dt / 4 ->
  INR n * (Rabs (v start) + v dt) <= 281474976710656 * v dt ->
  fwindow dt stop start = Ok l -> nth_error l i = Some t -> nth_error l (S i) = Some t' ->
  v t < v t' /\
  Rabs (v (bsub t' t) - v dt) <= 24 / 9007199254740992 * (INR (S i) * (Rabs (v start) + v dt)).
Proof. exact (window_steps dt stop start n l i t t'). Qed.

(** C108: an end that is [n*dt], exactly or as computed by Python, is the last point *)
Theorem C108_last dt stop start n : windowable dt stop start -> v start = 0 ->
  (1 <= Z.of_nat n <= 2 ^ 40)%Z ->
  stop = bmul (of_Z (Z.of_nat n)) dt \/ v stop = INR n * v dt ->
  exists l, fwindow dt stop start = Ok l /\ length l = S n /\ nth_error l n = Some stop.
Proof. exact (last_point dt stop start n). Qed.

(** C108: a single saved time is returned exactly when it is a point of the window *)
Theorem C108_saved {S TR : Type} (scheme : TR -> b64 -> S -> b64 -> res S) (trend : TR) l u0 t tr :
  fforecast scheme trend l u0 (SFloat t) = Ok tr ->
  (In t l -> dkeys tr = [t]) /\ (~ In t l -> dkeys tr = []).
Proof. exact (saved_keys scheme trend l u0 t tr). Qed.

(** C108: with [dt=0.1], [forecast(window(0.3), u0, saved_times=0.3)] is empty *)
Theorem C108_saved_end_refuted : exists dt stop start l,
  windowable dt stop start
  /\ Rabs (v stop - v start - INR 3 * v dt) <= v dt / 1000000000000000
  /\ fwindow dt stop start = Ok l
  /\ (forall (S TR : Type) scheme (trend : TR) (u0 : S) tr,
        fforecast scheme trend l u0 (SFloat stop) = Ok tr -> tr = [])
  /\ fforecast (fun (_ : unit) _ (u : nat) _ => Ok (u + 1)%nat) tt l 0%nat (SFloat stop) = Ok [].
Proof. exact saved_end_missing. Qed.

(** C108: far from zero the last of eleven points is more than two steps late *)
Theorem C108_drift_refuted : exists dt stop start l t,
  fin dt /\ fin stop /\ fin start /\ 0 < v dt
  /\ Rabs (v stop - v start - INR 10 * v dt) <= v dt / 1000000000000000
  /\ fwindow dt stop start = Ok l /\ length l = 11%nat /\ nth_error l 10 = Some t
  /\ v t - v stop >= 2 * v dt.
Proof. exact drift. Qed.

(** C108: without any bound on the magnitudes, a window whose start is before its end
    begins with its start, or there are too many points for a 64-bit integer *)
Theorem C108_starts dt stop start : fin dt -> 0 < v dt -> fin stop -> fin start ->
  v start < v stop ->
  fwindow dt stop start = Err ValueError \/ exists l, fwindow dt stop start = Ok (start :: l).
Proof. exact (window_starts dt stop start). Qed.

(** C108: the window is empty exactly when its start is not before [end+dt/3], as computed *)
Theorem C108_boundary dt stop start : let e := badd stop (bdiv dt (of_Z 3)) in
  fin dt -> 0 < v dt -> fin e -> fin start ->
  fwindow dt stop start = Err ValueError
  \/ exists l, fwindow dt stop start = Ok l /\ (nth_error l 0 = Some start <-> v start < v e)
              /\ (l = [] <-> v e <= v start).
Proof. exact (window_boundary dt stop start). Qed.

(** C108: [window(t, t)] can be empty: [dt/3] is lost in the sum *)
Theorem C108_single_refuted : exists dt t, fin dt /\ fin t /\ 0 < v dt /\ fwindow dt t t = Ok [].
Proof. exact single_missing. Qed.

(** [dt = 0.1], [window(1.)]: eleven points *)
Example C108_length_example : windowable tenth one zero
  /\ Rabs (v one - v zero - INR 10 * v tenth) <= v tenth / 4
  /\ exists l, fwindow tenth one zero = Ok l /\ length l = 11%nat.
Proof.
  split; [exact w_tenth|]. split; [exact near_tenth|].
  destruct (C108_length tenth one zero 10 w_tenth near_tenth) as [l [E [L _]]].
  exists l. split; [exact E|exact L].
Qed.

(** [window(0., 1.)] *)
Example C108_empty_example : fwindow tenth zero one = Ok [].
Proof. apply C108_empty; [exact w_back|]. rewrite v_zero, v_one, v_tenth. lra. Qed.

Example C108_zero_step_example : fwindow zero one zero = Err ZeroDivisionError.
Proof. apply C108_zero_step. reflexivity. Qed.

(** point 7 of [window(1.)] for [dt = 0.1] is not [0.7], and is within 10^-13 of it *)
Example C108_points_example : exists l t, fwindow tenth one zero = Ok l
  /\ nth_error l 7 = Some t /\ fin t /\ Rabs (v t - 7 / 10) <= / 10000000000000.
Proof.
  destruct (C108_length tenth one zero 10 w_tenth near_tenth) as [l [E [L _]]].
  destruct (nth_error l 7) as [t|] eqn:N.
  - exists l, t. destruct (C108_points tenth one zero 10 l 7 t w_tenth near_tenth E N) as [F P].
    split; [exact E|]. split; [exact N|]. split; [exact F|].
    rewrite v_zero, v_tenth, Rabs_R0 in P. simpl INR in P. apply le_abs in P. apply abs_le. lra.
  - exfalso. apply nth_error_None in N. unfold b64 in *. rewrite L in N.
    do 7 apply le_S_n in N. inversion N.
Qed.

Example C108_closest_example : exists l t, fwindow tenth one zero = Ok l
  /\ nth_error l 7 = Some t /\ closest t (INR 7 * v tenth).
Proof.
  destruct C108_points_example as [l [t [E [N _]]]]. exists l, t. split; [exact E|]. split; [exact N|].
  apply (C108_closest tenth one zero 10 l 7 t w_tenth v_zero); auto.
  pose proof near_tenth as H. rewrite v_zero, Rminus_0_r in H. exact H.
Qed.

Example C108_steps_example : forall l i t t', fwindow tenth one zero = Ok l ->
  nth_error l i = Some t -> nth_error l (S i) = Some t' -> v t < v t'.
Proof.
  intros l i t t' E N N'.
  refine (proj1 (C108_steps tenth one zero 10 l i t t' w_tenth near_tenth _ E N N')).
  rewrite v_zero, Rabs_R0, v_tenth. simpl INR. lra.
Qed.

(** [window(3*dt)] for [dt = 0.1] and [window(1.)] for [dt = 0.25] end at their end *)
Example C108_last_example :
  (exists l, fwindow tenth (bmul (of_Z 3) tenth) zero = Ok l /\ nth_error l 3 = Some (bmul (of_Z 3) tenth))
  /\ (exists l, fwindow quarter one zero = Ok l /\ nth_error l 4 = Some one).
Proof.
  split.
  - destruct (C108_last tenth (bmul (of_Z 3) tenth) zero 3 w_tenth3' v_zero) as [l [E [_ N]]].
    + split; discriminate.
    + left. reflexivity.
    + exists l. split; [exact E|exact N].
  - destruct (C108_last quarter one zero 4 w_quarter v_zero) as [l [E [_ N]]].
    + split; discriminate.
    + right. rewrite v_one, v_quarter. simpl INR. lra.
    + exists l. split; [exact E|exact N].
Qed.

Example C108_saved_example : exists l tr,
  fwindow quarter one zero = Ok l
  /\ fforecast (fun (_ : unit) _ (u : nat) _ => Ok (u + 1)%nat) tt l 0%nat (SFloat one) = Ok tr
  /\ dkeys tr = [one].
Proof.
  destruct (proj2 C108_last_example) as [l [E N]].
  assert (X : match fwindow quarter one zero with
     | Ok l => match fforecast (fun (_ : unit) _ (u : nat) _ => Ok (u + 1)%nat) tt l 0%nat (SFloat one) with
               | Ok _ => true | Err _ => false end
     | Err _ => false end = true) by (vm_compute; reflexivity).
  rewrite E in X.
  destruct (fforecast (fun (_ : unit) _ (u : nat) _ => Ok (u + 1)%nat) tt l 0%nat (SFloat one)) as [tr|] eqn:Q;
    [|discriminate X].
  exists l, tr. split; [exact E|]. split; [exact Q|].
  apply (proj1 (C108_saved _ _ _ _ _ _ Q)). exact (nth_error_In _ _ N).
Qed.

Example C108_starts_example : exists l, fwindow tenth one zero = Ok (zero :: l).
Proof.
  destruct (C108_length tenth one zero 10 w_tenth near_tenth) as [l [E _]].
  destruct (C108_starts tenth one zero) as [H|H]; try (apply fin_sf; vm_compute; reflexivity).
  - rewrite v_tenth. lra.
  - rewrite v_one, v_zero. lra.
  - rewrite E in H. discriminate H.
  - exact H.
Qed.

(** [dt = 3.], [window(-1., -5e-324)]: the end as computed is [0.], the quotient underflows,
    the start is a point; with the start at [0.] the window is empty *)
Example C108_boundary_example :
  (exists l, fwindow three minus_one tiny = Ok l /\ nth_error l 0 = Some tiny)
  /\ is_zero (bdiv (bsub (badd minus_one (bdiv three (of_Z 3))) tiny) three) = true
  /\ fwindow three minus_one zero = Ok [].
Proof.
  split; [|split; [vm_compute; reflexivity|]].
  - destruct (C108_boundary three minus_one tiny) as [H|[l [E [[_ I] _]]]];
      try (apply fin_sf; vm_compute; reflexivity).
    + rewrite v_three. lra.
    + exfalso. revert H. exact tiny_ok.
    + exists l. split; [exact E|]. apply I. rewrite v_end. exact tiny_neg.
  - destruct (C108_boundary three minus_one zero) as [H|[l [E [_ [_ I]]]]];
      try (apply fin_sf; vm_compute; reflexivity).
    + rewrite v_three. lra.
    + exfalso. revert H. vm_compute. discriminate.
    + rewrite E, I; [reflexivity|]. rewrite v_end, v_zero. apply Rle_refl.
Qed.

Print Assumptions C108_length.
Print Assumptions C108_empty.
Print Assumptions C108_zero_step.
Print Assumptions C108_points.
Print Assumptions C108_closest.
Print Assumptions C108_steps.
Print Assumptions C108_last.
Print Assumptions C108_saved.
Print Assumptions C108_saved_end_refuted.
Print Assumptions C108_drift_refuted.
Print Assumptions C108_starts.
Print Assumptions C108_boundary.
Print Assumptions C108_single_refuted.
