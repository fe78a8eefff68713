(** Concrete windows of doubles, used by the examples and the refutations. *)
From Coq Require Import List ZArith Bool Reals Lra Lia.
From Flocq Require Import Core.Core IEEE754.BinarySingleNaN.
From Verif Require Import PyBase ForecastModel FloatModel FloatSpec FloatProofs.
Import ListNotations.
Open Scope R_scope.

(** the doubles written [0.1], [0.3], [0.75], [1.], [0.] *)
Definition tenth : b64 := bdiv (of_Z 1) (of_Z 10).
Definition three_tenths : b64 := bdiv (of_Z 3) (of_Z 10).
Definition quarter : b64 := bdiv (of_Z 1) (of_Z 4).
Definition one : b64 := of_Z 1.
Definition zero : b64 := of_Z 0.
(** [2.**48] *)
Definition far : b64 := of_Z (2 ^ 48).

Lemma v_sf (x : b64) y : B2SF x = y -> v x = SF2R radix2 y.
Proof. intros <-. destruct x; reflexivity. Qed.
Lemma fin_sf (x : b64) : is_finite_SF (B2SF x) = true -> fin x.
Proof. destruct x; auto. Qed.

Lemma v_tenth : v tenth = 7205759403792794 / 72057594037927936.
Proof. rewrite (v_sf tenth (SpecFloat.S754_finite false 7205759403792794 (-56)) ltac:(vm_compute; reflexivity)). unfold SF2R, F2R. simpl. lra. Qed.
Lemma v_three_tenths : v three_tenths = 5404319552844595 / 18014398509481984.
Proof. rewrite (v_sf three_tenths (SpecFloat.S754_finite false 5404319552844595 (-54)) ltac:(vm_compute; reflexivity)). unfold SF2R, F2R. simpl. lra. Qed.
Lemma v_quarter : v quarter = / 4.
Proof. rewrite (v_sf quarter (SpecFloat.S754_finite false 4503599627370496 (-54)) ltac:(vm_compute; reflexivity)). unfold SF2R, F2R. simpl. lra. Qed.
Lemma v_one : v one = 1.
Proof. rewrite (v_sf one (SpecFloat.S754_finite false 4503599627370496 (-52)) ltac:(vm_compute; reflexivity)). unfold SF2R, F2R. simpl. lra. Qed.
Lemma v_zero : v zero = 0.
Proof. reflexivity. Qed.

Lemma small x : / 1024 <= x <= 1024 -> small_step x.
Proof.
  intros [A B]. split.
  - eapply Rle_trans; [|exact A]. apply Rle_trans with (bpow radix2 (-10)); [apply bpow_le; lia|simpl; lra].
  - eapply Rle_trans; [exact B|]. apply Rle_trans with (bpow radix2 10); [simpl; lra|apply bpow_le; lia].
Qed.

Ltac wnd := constructor; try (apply fin_sf; vm_compute; reflexivity); try apply small; unfold two40;
  rewrite ?v_tenth, ?v_three_tenths, ?v_quarter, ?v_one, ?v_zero; try apply abs_le; lra.

Lemma w_tenth : windowable tenth one zero. Proof. wnd. Qed.
Lemma w_tenth3 : windowable tenth three_tenths zero. Proof. wnd. Qed.
Lemma w_tenth3' : windowable tenth (bmul (of_Z 3) tenth) zero.
Proof.
  assert (E : v (bmul (of_Z 3) tenth) = 5404319552844596 / 18014398509481984).
  { rewrite (v_sf (bmul (of_Z 3) tenth) (SpecFloat.S754_finite false 5404319552844596 (-54)) ltac:(vm_compute; reflexivity)). unfold SF2R, F2R. simpl. lra. }
  constructor; try (apply fin_sf; vm_compute; reflexivity); try apply small; unfold two40;
  rewrite ?E, ?v_tenth, ?v_zero; try apply abs_le; lra.
Qed.
Lemma w_quarter : windowable quarter one zero. Proof. wnd. Qed.
Lemma w_back : windowable tenth zero one. Proof. wnd. Qed.

Lemma near_tenth : Rabs (v one - v zero - INR 10 * v tenth) <= v tenth / 4.
Proof. rewrite v_one, v_zero, v_tenth. simpl INR. apply abs_le. lra. Qed.

(** [window(0.3)] for [dt = 0.1] ends at 0.30000000000000004 *)
Lemma three_tenths_missing : exists l,
  fwindow tenth three_tenths zero = Ok l /\ length l = 4%nat /\ ~ In three_tenths l.
Proof.
  assert (X : match fwindow tenth three_tenths zero with Ok _ => true | Err _ => false end = true) by (vm_compute; reflexivity).
  destruct (fwindow tenth three_tenths zero) as [l|] eqn:E; [clear X|discriminate X].
  exists l. split; [reflexivity|].
  assert (M : map B2SF l = [SpecFloat.S754_zero false;
     SpecFloat.S754_finite false 7205759403792794 (-56);
     SpecFloat.S754_finite false 7205759403792794 (-55);
     SpecFloat.S754_finite false 5404319552844596 (-54)]).
  { transitivity (match fwindow tenth three_tenths zero with Ok l => map B2SF l | _ => [] end);
      [rewrite E; reflexivity|vm_compute; reflexivity]. }
  split; [pose proof (f_equal (@length _) M) as LL; rewrite map_length in LL; exact LL|].
  intros I. apply (in_map B2SF) in I. rewrite M in I.
  assert (T : B2SF three_tenths = SpecFloat.S754_finite false 5404319552844595 (-54)) by (vm_compute; reflexivity).
  rewrite T in I. simpl in I. intuition discriminate.
Qed.

Lemma saved_end_missing : exists dt stop start l,
  windowable dt stop start
  /\ Rabs (v stop - v start - INR 3 * v dt) <= v dt / 1000000000000000
  /\ fwindow dt stop start = Ok l
  /\ (forall (S TR : Type) scheme (trend : TR) (u0 : S) tr,
        fforecast scheme trend l u0 (SFloat stop) = Ok tr -> tr = [])
  /\ fforecast (fun (_ : unit) _ (u : nat) _ => Ok (u + 1)%nat) tt l 0%nat (SFloat stop) = Ok [].
Proof.
  exists tenth, three_tenths, zero. destruct three_tenths_missing as [l [E [L N]]]. exists l.
  split; [apply w_tenth3|]. split.
  { rewrite v_three_tenths, v_zero, v_tenth. simpl INR. apply abs_le. lra. }
  split; [exact E|].
  assert (G : forall (S TR : Type) scheme (trend : TR) (u0 : S) tr,
        fforecast scheme trend l u0 (SFloat three_tenths) = Ok tr -> tr = []).
  { intros. apply saved_keys in H. destruct H as [_ H]. specialize (H N).
    destruct tr; [reflexivity|discriminate]. }
  split; [exact G|].
  destruct (fforecast (fun (_ : unit) _ (u : nat) _ => Ok (u + 1)%nat) tt l 0%nat (SFloat three_tenths)) as [tr|] eqn:Q.
  - f_equal. apply (G _ _ _ _ _ _ Q).
  - exfalso.
    assert (X : match fwindow tenth three_tenths zero with
                | Ok l => fforecast (fun (_ : unit) _ (u : nat) _ => Ok (u + 1)%nat) tt l 0%nat (SFloat three_tenths)
                | Err e => Err e end = Ok []) by (vm_compute; reflexivity).
    rewrite E, Q in X. discriminate X.
Qed.

(** Far from zero the points drift: the second difference of the first two points is
    0.125 instead of 0.1. *)
Lemma drift : exists dt stop start l t,
  fin dt /\ fin stop /\ fin start /\ 0 < v dt
  /\ Rabs (v stop - v start - INR 10 * v dt) <= v dt / 1000000000000000
  /\ fwindow dt stop start = Ok l /\ length l = 11%nat /\ nth_error l 10 = Some t
  /\ v t - v stop >= 2 * v dt.
Proof.
  set (stop := badd far one).
  assert (X : match fwindow tenth stop far with Ok _ => true | Err _ => false end = true) by (vm_compute; reflexivity).
  destruct (fwindow tenth stop far) as [l|] eqn:E; [clear X|discriminate X].
  assert (M : match fwindow tenth stop far with Ok l => (length l, nth_error (map B2SF l) 10) | _ => (0%nat, None) end
              = (11%nat, Some (SpecFloat.S754_finite false 4503599627370516 (-4)))) by (vm_compute; reflexivity).
  rewrite E in M. pose proof (f_equal fst M) as L. pose proof (f_equal snd M) as T. cbn [fst snd] in L, T.
  rewrite nth_error_map in T. change (@nth_error (binary_float 53 1024) l 10) with (@nth_error b64 l 10) in T. destruct (nth_error l 10) as [t|] eqn:Nt; [|cbn in T; discriminate T].
  assert (T2 : B2SF t = SpecFloat.S754_finite false 4503599627370516 (-4)) by (cbn [option_map] in T; congruence). clear T. rename T2 into T.
  assert (Vt : v t = 281474976710656 + 5 / 4).
  { rewrite (v_sf _ _ T). unfold SF2R, F2R. simpl. lra. }
  assert (Vs : v stop = 281474976710657).
  { rewrite (v_sf stop (SpecFloat.S754_finite false 4503599627370512 (-4)) ltac:(vm_compute; reflexivity)). unfold SF2R, F2R. simpl. lra. }
  assert (Vf : v far = 281474976710656).
  { rewrite (v_sf far (SpecFloat.S754_finite false 4503599627370496 (-4)) ltac:(vm_compute; reflexivity)). unfold SF2R, F2R. simpl. lra. }
  exists tenth, stop, far, l, t.
  repeat split; try (apply fin_sf; vm_compute; reflexivity); auto.
  - rewrite v_tenth. lra.
  - rewrite Vs, Vf, v_tenth. simpl INR. apply abs_le. lra.
  - rewrite Vt, Vs, v_tenth. lra.
Qed.

(** the doubles written [3.], [-1.], [-5e-324], [2.**60] *)
Definition three : b64 := of_Z 3.
Definition minus_one : b64 := of_Z (-1).
Definition tiny : b64 := @B754_finite 53 1024 true 1 (-1074) eq_refl.
Definition farther : b64 := of_Z (2 ^ 60).

Lemma v_three : v three = 3.
Proof. exact (proj2 (of_Z_ok 3 ltac:(lia))). Qed.
Lemma v_end : v (badd minus_one (bdiv three (of_Z 3))) = 0.
Proof. rewrite (v_sf (badd minus_one (bdiv three (of_Z 3))) (SpecFloat.S754_zero false) ltac:(vm_compute; reflexivity)). reflexivity. Qed.
Lemma tiny_neg : v tiny < 0.
Proof. apply F2R_lt_0. reflexivity. Qed.
Lemma tiny_ok : fwindow three minus_one tiny = Err ValueError -> False.
Proof. vm_compute. discriminate. Qed.

Lemma single_missing : exists dt t, fin dt /\ fin t /\ 0 < v dt /\ fwindow dt t t = Ok [].
Proof.
  exists one, farther. split; [apply fin_sf; vm_compute; reflexivity|].
  split; [apply fin_sf; vm_compute; reflexivity|]. split; [rewrite v_one; lra|].
  vm_compute. reflexivity.
Qed.
