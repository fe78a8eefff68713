(** Forecasts with the generated models of Burgers' and of the Kuramoto-Sivashinsky equations converge in the
    root mean square, with any of the schemes. *)
From Coq Require Import List Arith ZArith Bool Reals String Lia Lra Permutation FunctionalExtensionality Psatz.
From Verif Require Import PyBase Scalars FieldFacts SymModel FDReal FDExprModel GridModel ForecastModel ForecastSpec ConsistProofs
  SchemesModel SchemesSpec LineModel LineSpec LineProofs LineConv LineMoreModel LineMoreSpec LineMoreProofs LineMoreForecast LineEnergy LineStage LineStep.
Import ListNotations.
Open Scope R_scope.

Lemma nat_above (X : R) : exists n0, (0 < n0)%nat /\ forall n, (n0 <= n)%nat -> X <= INR n.
Proof.
  destruct (archimed X) as [A _]. set (m := Z.to_nat (up X)).
  assert (Hm : X < INR m + 1).
  { unfold m. destruct (Z_le_gt_dec 0 (up X)) as [Z|Z].
    - rewrite INR_IZR_INZ, Z2Nat.id by auto. lra.
    - assert (IZR (up X) <= 0) by (apply (IZR_le _ 0); lia). pose proof (pos_INR (Z.to_nat (up X))). lra. }
  exists (S m). split; [lia|]. intros n Hn.
  apply Rle_trans with (INR (S m)); [rewrite S_INR; lra|]. apply le_INR. lia.
Qed.
Lemma exp_mono x y : x <= y -> exp x <= exp y.
Proof. intros [H| ->]; [left; apply exp_increasing; auto|right; auto]. Qed.

Section Forecast.
  Variables (mu eta L t0 t1 M D Q : R) (u : R -> R -> R).
  Hypothesis (PL : 0 < L) (Par : parabolic mu eta) (HM : 0 <= M) (HD : 0 <= D) (HQ : 0 <= Q).
  Notation v n := (fun (t : R) (j : nat) => u t (INR j * mesh L n)).
  Hypothesis Tame : forall n t, (0 < n)%nat -> t0 <= t <= t1 -> tame n (mesh L n) M (v n t).
  Hypothesis Def : forall n t dt r s j, (0 < n)%nat -> t0 <= t -> t + dt <= t1 -> t <= r <= t + dt -> t <= s <= t + dt -> (j < n)%nat ->
    Rabs (v n r j - v n t j - (r - t) * full n (mesh L n) mu eta (v n s) j) <= dt * (D * (dt + mesh L n ^ 2)).

  Theorem rms_forecast : exists C n0, forall n tau w state sv (trend : @trendT RF (list nat)) sch, (n0 <= n)%nat ->
    runs t0 t1 tau w -> 0 <= tau -> tau * stiff (mesh L n) mu eta <= 1 -> tau <= Q * mesh L n ^ 2 -> sampled L n (u t0) state -> sv <> SOther ->
    (forall t u, exists r, trend t u = Ok r /\ forall j, (j < n)%nat -> at0 r j = full n (mesh L n) mu eta (at0 u) j) ->
    exists traj, forecast Req_EM_T Rminus (@onestep_fun RF (list nat) sch) trend w state sv = Ok traj /\
      forall t, In t w -> is_saved w sv t -> exists s, dget Req_EM_T t traj = Some s /\
        line_rms L n (u t) s <= C * mesh L n ^ 2 /\ within L n (C * sqrt (INR n) * mesh L n ^ 2) (u t) s.
  Proof.
    destruct (dissipation mu eta Par) as (nu & C0 & Hnu & HC0 & Dis).
    assert (He : 0 <= eta) by (destruct Par as [H|[-> _]]; lra).
    set (G := growth nu C0 M). set (D1 := D * (Q + 1)). set (EE := exp (G * (t1 - t0))).
    assert (PK : 0 <= Kg M) by (unfold Kg; lra).
    assert (HG : 0 <= G).
    { unfold G, growth. assert (0 <= Kg M ^ 2 / nu) by (apply Rmult_le_pos; [apply pow2_ge_0|left; apply Rinv_0_lt_compat; auto]).
      assert (1 ^ 4 <= (1 + C0) ^ 4) by (apply pow_incr; lra). lra. }
    assert (HD1 : 0 <= D1) by (unfold D1; apply Rmult_le_pos; lra).
    assert (HE : 0 < EE) by apply exp_pos.
    set (c1 := Q * L ^ 2). set (c2 := (M + 1) * c1). set (c3 := 2 * (M + 1) * Q * L). set (c4 := 12 * Kg M ^ 2 / nu * c1). set (c5 := (40 * EE + 13) * (D1 * L ^ 2)).
    assert (P1 : 0 <= c1) by (unfold c1; apply Rmult_le_pos; auto; apply pow2_ge_0).
    assert (P2 : 0 <= c2) by (unfold c2; apply Rmult_le_pos; lra).
    assert (P3 : 0 <= c3) by (unfold c3; repeat apply Rmult_le_pos; lra).
    assert (P4 : 0 <= c4) by (unfold c4; apply Rmult_le_pos; auto; unfold Rdiv; apply Rmult_le_pos; [assert (0 <= Kg M ^ 2) by apply pow2_ge_0; lra|left; apply Rinv_0_lt_compat; auto]).
    assert (P5 : 0 <= c5) by (unfold c5; apply Rmult_le_pos; [lra|]; apply Rmult_le_pos; auto; apply pow2_ge_0).
    destruct (nat_above (c1 + c2 + c3 + c4 + c5 + 1)) as (n0 & Pn0 & Hn0).
    exists (EE * D1), n0. intros n tau w state sv trend sch Hn (W0 & W1 & W2) Ht St Hq Hs Hsv Tr.
    assert (Hn' : (0 < n)%nat) by lia. specialize (Hn0 n Hn).
    pose proof (h_pos L PL n Hn') as Hh. pose proof (INR_n n Hn') as HN. pose proof (n_mesh L n Hn') as HL.
    set (h := mesh L n) in *.
    assert (T01 : t0 <= t1) by (apply W2; eapply nth_error_In; eauto).
    set (T := D1 * h ^ 2). assert (HT : 0 <= T) by (unfold T; apply Rmult_le_pos; auto; apply pow2_ge_0).
    set (T' := T * sqrt (INR n)). assert (PT : 0 <= T') by (unfold T'; apply Rmult_le_pos; auto; apply sqrt_pos).
    assert (Eh : h = L / INR n) by reflexivity.
    assert (EE1 : 1 <= EE) by (unfold EE; rewrite <- exp_0; apply exp_mono; apply Rmult_le_pos; lra).
    assert (tau_n : tau * INR n <= c1).
    { apply Rle_trans with (Q * h ^ 2 * INR n); [apply Rmult_le_compat_r; lra|]. unfold c1. rewrite Eh.
      replace (Q * (L / INR n) ^ 2 * INR n) with (Q * L ^ 2 * (/ INR n)) by (field; lra).
      rewrite <- (Rmult_1_r (Q * L ^ 2)) at 2. apply Rmult_le_compat_l; auto. rewrite <- Rinv_1. apply Rinv_le_contravar; lra. }
    assert (S1 : tau <= 1) by (apply Rmult_le_reg_r with (INR n); lra).
    assert (S2 : tau * (M + 1) <= 1).
    { apply Rmult_le_reg_r with (INR n); auto. replace (tau * (M + 1) * INR n) with ((M + 1) * (tau * INR n)) by ring.
      assert ((M + 1) * (tau * INR n) <= c2) by (unfold c2; apply Rmult_le_compat_l; lra). lra. }
    assert (S3 : tau * (M + 1) * (2 / h) <= 1).
    { apply Rle_trans with (Q * h ^ 2 * (M + 1) * (2 / h)).
      - apply Rmult_le_compat_r; [unfold Rdiv; pose proof (Rinv_0_lt_compat h Hh); lra|]. apply Rmult_le_compat_r; lra.
      - replace (Q * h ^ 2 * (M + 1) * (2 / h)) with (2 * (M + 1) * Q * h) by (field; lra). apply Rmult_le_reg_r with (INR n); auto.
        replace (2 * (M + 1) * Q * h * INR n) with c3 by (unfold c3; rewrite <- HL; ring). lra. }
    assert (S4 : 12 * Kg M ^ 2 * tau <= nu).
    { apply Rmult_le_reg_r with (INR n / nu); [apply Rdiv_lt_0_compat; auto|].
      replace (12 * Kg M ^ 2 * tau * (INR n / nu)) with (12 * Kg M ^ 2 / nu * (tau * INR n)) by (field; lra).
      replace (nu * (INR n / nu)) with (INR n) by (field; lra).
      assert (12 * Kg M ^ 2 / nu * (tau * INR n) <= c4).
      { unfold c4. apply Rmult_le_compat_l; auto. unfold Rdiv. apply Rmult_le_pos; [assert (0 <= Kg M ^ 2) by apply pow2_ge_0; lra|left; apply Rinv_0_lt_compat; auto]. }
      lra. }
    assert (S5 : (40 * EE + 13) * T' <= 1).
    { apply Rmult_le_reg_r with (INR n); auto. unfold T', T. rewrite Eh.
      replace ((40 * EE + 13) * (D1 * (L / INR n) ^ 2 * sqrt (INR n)) * INR n) with (c5 * (sqrt (INR n) / INR n)) by (unfold c5; field; lra).
      assert (sqrt (INR n) / INR n <= 1).
      { apply Rmult_le_reg_r with (INR n); auto. replace (sqrt (INR n) / INR n * INR n) with (sqrt (INR n)) by (field; lra).
        rewrite <- (sqrt_square (INR n)) at 2 by lra. rewrite Rmult_1_l. apply sqrt_le_1_alt. nra. }
      apply Rle_trans with (c5 * 1); [apply Rmult_le_compat_l; auto|]. lra. }
    destruct (forecast_keeps (@onestep_fun RF (list nat) sch) trend
      (fun t s => t0 <= t <= t1 /\ nr n (off (v n) t (at0 s)) ^ 2 <= (exp (G * (t - t0)) - 1) * T' ^ 2) w state sv t0 Hsv W0) as (traj & E & H).
    - split; [lra|]. rewrite (nr_ext n _ (fun _ => 0)).
      + rewrite nr_sq. unfold ip. rewrite (sm_ext n _ (fun _ => 0 * (1 * 1))) by (intros; ring). rewrite sm_scale.
        replace (G * (t0 - t0)) with 0 by ring. rewrite exp_0. right. ring.
      + intros j Hj. unfold off, at0. rewrite Hs by auto. apply Rminus_diag_eq. reflexivity.
    - intros k t t' s Hk1 Hk2 ([T1 T2] & HU).
      destruct (W1 k t t' Hk1 Hk2) as [R1 R2]. pose proof (W2 t' (nth_error_In _ _ Hk2)) as R3.
      set (dt := t' - t). assert (Hdt : 0 <= dt <= tau) by (unfold dt; lra).
      assert (Ex : exp (G * (t - t0)) <= EE) by (apply exp_mono, Rmult_le_compat_l; lra).
      assert (Ne : nr n (off (v n) t (at0 s)) <= EE * T').
      { pose proof (nr_pos n (off (v n) t (at0 s))). pose proof (exp_pos (G * (t - t0))).
        assert (nr n (off (v n) t (at0 s)) ^ 2 <= (EE * T') ^ 2).
        { eapply Rle_trans; [exact HU|]. rewrite Rpow_mult_distr. apply Rmult_le_compat_r; [apply pow2_ge_0|]. nra. }
        assert (0 <= EE * T') by (apply Rmult_le_pos; lra). nra. }
      assert (Stp : dt * stiff h mu eta <= 1).
      { apply Rle_trans with (tau * stiff h mu eta); auto. apply Rmult_le_compat_r; [|lra]. unfold stiff.
        pose proof (Rabs_pos mu). assert (0 <= / h ^ 2) by (left; apply Rinv_0_lt_compat, pow_lt; auto). assert (0 <= / h ^ 4) by (left; apply Rinv_0_lt_compat, pow_lt; auto).
        unfold Rdiv. assert (0 <= Rabs mu * / h ^ 2) by (apply Rmult_le_pos; auto). assert (0 <= eta * / h ^ 4) by (apply Rmult_le_pos; auto). lra. }
      destruct (step_error n h mu eta dt nu C0 M T Hh He (proj1 Hdt) Stp Hnu HC0 (fun U => Dis n h dt U Hh (proj1 Hdt) Stp) HM HT) with
        (v := v n) (t := t) (s := sch) (trend := trend) (u := s) as (s' & Es & Hs').
      + lra.
      + eapply Rle_trans; [|exact S2]. apply Rmult_le_compat_r; lra.
      + eapply Rle_trans; [|exact S3]. apply Rmult_le_compat_r; [unfold Rdiv; pose proof (Rinv_0_lt_compat h Hh); lra|]. apply Rmult_le_compat_r; lra.
      + eapply Rle_trans; [|exact S4]. apply Rmult_le_compat_l; [|lra]. assert (0 <= Kg M ^ 2) by apply pow2_ge_0. lra.
      + intros r Hr. apply Tame; auto. unfold dt in Hr. lra.
      + intros r s0 j Hr Hs0 Hj. eapply Rle_trans; [apply (Def n t dt r s0 j); auto; unfold dt; lra|].
        apply Rmult_le_compat_l; [lra|]. unfold T, D1. fold h. 
        replace (D * (Q + 1) * h ^ 2) with (D * (Q * h ^ 2 + h ^ 2)) by ring. apply Rmult_le_compat_l; auto. lra.
      + exact Tr.
      + fold T'. replace (40 * nr n (off (v n) t (at0 s)) + 13 * T') with (40 * (nr n (off (v n) t (at0 s))) + 13 * T') by ring. lra.
      + exists s'. split; [exact Es|]. split; [lra|]. replace (t + dt) with t' in Hs' by (unfold dt; ring).
        fold G T' in Hs'. eapply Rle_trans; [exact Hs'|].
        assert (A1 : 1 + G * dt <= exp (G * dt)) by apply exp_ineq1_le.
        assert (A2 : exp (G * (t' - t0)) = exp (G * dt) * exp (G * (t - t0))) by (rewrite <- exp_plus; f_equal; unfold dt; ring).
        pose proof (exp_pos (G * (t - t0))) as A3.
        assert (A4 : (1 + G * dt) * nr n (off (v n) t (at0 s)) ^ 2 <= (1 + G * dt) * ((exp (G * (t - t0)) - 1) * T' ^ 2)).
        { apply Rmult_le_compat_l; auto. assert (0 <= G * dt) by (apply Rmult_le_pos; lra). lra. }
        assert (A5 : (1 + G * dt) * exp (G * (t - t0)) <= exp (G * dt) * exp (G * (t - t0))) by (apply Rmult_le_compat_r; lra).
        assert (A6 : (1 + G * dt) * exp (G * (t - t0)) * T' ^ 2 <= exp (G * dt) * exp (G * (t - t0)) * T' ^ 2) by (apply Rmult_le_compat_r; auto; apply pow2_ge_0).
        rewrite A2. lra.
    - exists traj. split; [exact E|]. intros t Ht1 Ht2. destruct (H t Ht1 Ht2) as (s & Gt & [T1 T2] & HU).
      exists s. split; [exact Gt|].
      assert (Ex : exp (G * (t - t0)) <= EE) by (apply exp_mono, Rmult_le_compat_l; lra).
      assert (Ne : nr n (off (v n) t (at0 s)) <= EE * T').
      { pose proof (nr_pos n (off (v n) t (at0 s))). pose proof (exp_pos (G * (t - t0))).
        assert (nr n (off (v n) t (at0 s)) ^ 2 <= (EE * T') ^ 2).
        { eapply Rle_trans; [exact HU|]. rewrite Rpow_mult_distr. apply Rmult_le_compat_r; [apply pow2_ge_0|]. nra. }
        assert (0 <= EE * T') by (apply Rmult_le_pos; lra). nra. }
      split.
      + unfold line_rms. fold h.
        replace (fold_right Rplus 0 (map (fun j => (s [O; j] - u t (INR j * h)) ^ 2) (seq 0 n))) with (nr n (off (v n) t (at0 s)) ^ 2).
        2:{ rewrite nr_sq. unfold ip, sm. f_equal. apply map_ext. intros j. unfold off, at0. fold h. ring. }
        unfold Rdiv. rewrite sqrt_mult_alt by apply pow2_ge_0. rewrite sqrt_pow2 by apply nr_pos. rewrite sqrt_inv.
        apply Rle_trans with (EE * T' * / sqrt (INR n)); [apply Rmult_le_compat_r; auto; left; apply Rinv_0_lt_compat, sqrt_lt_R0; auto|].
        right. unfold T', T. field. pose proof (sqrt_lt_R0 (INR n) HN). lra.
      + intros j Hj. pose proof (nr_entry n (off (v n) t (at0 s)) j Hj) as X. unfold off at 1, at0 at 1 in X. fold h in X. fold h.
        eapply Rle_trans; [exact X|]. eapply Rle_trans; [exact Ne|]. right. unfold T', T. ring.
  Qed.
End Forecast.

(** ** the truncation error *)
Lemma dd_derivable h (f f' : R -> R) : (forall y, derivable_pt_lim f y (f' y)) -> forall y, derivable_pt_lim (dd h f) y (dd h f' y).
Proof.
  intros D y.
  assert (X : forall c, derivable_pt_lim (fun y => f (y + c)) y (f' (y + c))).
  { intros c. eapply dl_eq; [|apply (derivable_pt_lim_comp (fun y => y + c) f y)].
    - rewrite Rmult_1_r. reflexivity.
    - eapply dl_eq; [|apply (derivable_pt_lim_plus id (fun _ => c)); [apply derivable_pt_lim_id|apply derivable_pt_lim_const]]. ring.
    - apply D. }
  pose proof (derivable_pt_lim_plus _ _ _ _ _ (derivable_pt_lim_minus _ _ _ _ _ (X h) (derivable_pt_lim_scal f 2 _ _ (D y))) (X (- h))) as Y.
  apply (derivable_pt_lim_scal _ (/ h ^ 2)) in Y.
  eapply derivable_pt_lim_ext; [|eapply dl_eq; [|exact Y]].
  - intros z. unfold mult_real_fct, plus_fct, minus_fct, dd. replace (z + - h) with (z - h) by ring. unfold Rdiv. ring.
  - unfold dd. replace (y + - h) with (y - h) by ring. unfold Rdiv. ring.
Qed.
Lemma dd_dd_consistent h (F : nat -> R -> R) B x : 0 < h -> (forall k y, (k < 6)%nat -> derivable_pt_lim (F k) y (F (S k) y)) ->
  (forall y, Rabs (F 6%nat y) <= B) -> Rabs (dd h (dd h (F O)) x - F 4%nat x) <= 2 * B / 3 * h ^ 2.
Proof.
  intros Hh D HB.
  assert (A : Rabs (dd h (F 2%nat) x - F 4%nat x) <= B / 3 * h ^ 2).
  { apply (dd_consistent h (fun k => F (2 + k)%nat)); auto. intros; apply D; lia. }
  assert (A2 : Rabs (dd h (fun y => dd h (F O) y - F 2%nat y) x) <= B / 3 * h ^ 2).
  { apply (dd_bounded h (fun k y => dd h (F k) y - F (2 + k)%nat y)); auto.
    - intros k y Hk. apply (derivable_pt_lim_minus (dd h (F k)) (F (2 + k)%nat)); [apply dd_derivable; intros; apply D; lia|apply D; lia].
    - intros y. apply (dd_consistent h (fun k => F (2 + k)%nat)); auto. intros; apply D; lia. }
  replace (dd h (dd h (F O)) x - F 4%nat x) with (dd h (fun y => dd h (F O) y - F 2%nat y) x + (dd h (F 2%nat) x - F 4%nat x))
    by (unfold dd; field; lra).
  eapply Rle_trans; [apply Rabs_triang|]. lra.
Qed.

Section Truncation.
  Variables (mu eta L t0 t1 M : R) (u : nat -> R -> R -> R) (ut utt : R -> R -> R).
  Hypothesis (PL : 0 < L) (He : 0 <= eta).
  Hypothesis D4 : space_derivatives t0 t1 4 u.
  Hypothesis D6 : eta = 0 \/ space_derivatives t0 t1 6 u.
  Hypothesis Dt : forall t x, t0 <= t <= t1 -> derivable_pt_lim (fun s => u O s x) t (ut t x).
  Hypothesis Dtt : forall t x, t0 <= t <= t1 -> derivable_pt_lim (fun s => ut s x) t (utt t x).
  Hypothesis Eq : forall t x, t0 <= t <= t1 -> ut t x = - u O t x * u 1%nat t x + mu * u 2%nat t x - eta * u 4%nat t x.
  Hypothesis Per : forall t x, t0 <= t <= t1 -> u O t (x + L) = u O t x.
  Hypothesis Bnd : forall t x, t0 <= t <= t1 ->
    Rabs (u O t x) <= M /\ Rabs (u 1%nat t x) <= M /\ Rabs (u 3%nat t x) <= M /\ Rabs (u 4%nat t x) <= M /\ Rabs (utt t x) <= M.
  Hypothesis Bnd6 : eta = 0 \/ forall t x, t0 <= t <= t1 -> Rabs (u 6%nat t x) <= M.
  Notation v n := (fun (t : R) (j : nat) => u O t (INR j * mesh L n)).

  Lemma all_tame n t : (0 < n)%nat -> t0 <= t <= t1 -> tame n (mesh L n) M (v n t).
  Proof.
    intros Hn Ht j Hj. split; [apply (Bnd t _ Ht)|].
    rewrite (sample_d1 L n Hn (u O t) j) by auto.
    apply (dc_bounded (mesh L n) (fun k => u k t) (h_pos L PL n Hn)); [intros; apply D4; auto; lia|intros; apply (Bnd t y Ht)].
  Qed.
  Lemma dd_period n f x : (forall x, f (x + L) = f x) -> dd (mesh L n) f (x + L) = dd (mesh L n) f x.
  Proof.
    intros P. unfold dd. replace (x + L + mesh L n) with (x + mesh L n + L) by ring. replace (x + L - mesh L n) with (x - mesh L n + L) by ring.
    rewrite !P. reflexivity.
  Qed.
  Lemma space_error n t j : (0 < n)%nat -> t0 <= t <= t1 -> (j < n)%nat ->
    Rabs (ut t (INR j * mesh L n) - full n (mesh L n) mu eta (v n t) j) <= (M * M / 6 + Rabs mu * M / 3 + eta * (2 * M / 3)) * mesh L n ^ 2.
  Proof.
    intros Hn Ht Hj. pose proof (h_pos L PL n Hn) as Hh. set (h := mesh L n) in *. set (x := INR j * h).
    assert (A1 := dc_consistent h (fun k => u k t) Hh M x ltac:(intros; apply D4; auto; lia) ltac:(intros y; apply (Bnd t y Ht))).
    assert (A2 := dd_consistent h (fun k => u k t) Hh M x ltac:(intros; apply D4; auto; lia) ltac:(intros y; apply (Bnd t y Ht))).
    cbv beta in A1, A2.
    assert (A3 : Rabs (eta * (dd h (dd h (u O t)) x - u 4%nat t x)) <= eta * (2 * M / 3) * h ^ 2).
    { destruct D6 as [-> |D]; [rewrite !Rmult_0_l, Rabs_R0; lra|]. destruct Bnd6 as [-> |B]; [rewrite !Rmult_0_l, Rabs_R0; lra|].
      rewrite Rabs_mult, (Rabs_pos_eq eta He), Rmult_assoc. apply Rmult_le_compat_l; auto.
      apply (dd_dd_consistent h (fun k => u k t)); auto; try (intros; apply D; auto; lia). }
    unfold full. rewrite lin_d2 by auto. unfold x, h. 
    rewrite (sample_d1 L n Hn (u O t) j) by auto. rewrite (sample_d2 L n Hn (u O t) j) by auto.
    rewrite (d2_ext L n (d2 n (mesh L n) (v n t)) (fun i => dd (mesh L n) (u O t) (INR i * mesh L n)) j) by (auto; intros; apply (sample_d2 L n Hn (u O t)); auto).
    rewrite (sample_d2 L n Hn (dd (mesh L n) (u O t)) j) by (auto; intros; apply dd_period; auto).
    fold h. fold x. rewrite (Eq t x Ht).
    replace (- u O t x * u 1%nat t x + mu * u 2%nat t x - eta * u 4%nat t x - (- u O t x * dc h (u O t) x + (mu * dd h (u O t) x + - eta * dd h (dd h (u O t)) x)))
      with (u O t x * (dc h (u O t) x - u 1%nat t x) + - (mu * (dd h (u O t) x - u 2%nat t x)) + eta * (dd h (dd h (u O t)) x - u 4%nat t x)) by ring.
    eapply Rle_trans; [apply Rabs_triang|]. eapply Rle_trans; [apply Rplus_le_compat_r, Rabs_triang|]. rewrite Rabs_Ropp, (Rabs_mult (u O t x)), (Rabs_mult mu).
    destruct (Bnd t x Ht) as (B0 & _).
    assert (Rabs (u O t x) * Rabs (dc h (u O t) x - u 1%nat t x) <= M * (M / 6 * h ^ 2)) by (apply Rmult_le_compat; auto using Rabs_pos).
    assert (Rabs mu * Rabs (dd h (u O t) x - u 2%nat t x) <= Rabs mu * (M / 3 * h ^ 2)) by (apply Rmult_le_compat_l; auto using Rabs_pos).
    lra.
  Qed.
  Definition defect : R := 3 / 2 * M + (M * M / 6 + Rabs mu * M / 3 + eta * (2 * M / 3)).
  Lemma scheme_defect n t dt r s j : 0 <= M -> (0 < n)%nat -> t0 <= t -> t + dt <= t1 -> t <= r <= t + dt -> t <= s <= t + dt -> (j < n)%nat ->
    Rabs (v n r j - v n t j - (r - t) * full n (mesh L n) mu eta (v n s) j) <= dt * (defect * (dt + mesh L n ^ 2)).
  Proof.
    intros HM Hn T0 T1 Hr Hs Hj. set (x := INR j * mesh L n).
    assert (A1 : Rabs (u O r x - (u O t x + (r - t) * ut t x)) <= M / 2 * (r - t) ^ 2).
    { pose proof (taylor_bound t r M 1 (proj1 Hr) (fun k s => match k with O => u O s x | 1%nat => ut s x | _ => utt s x end)) as T.
      cbv beta iota in T. specialize (fun A B => T A B r (conj (proj1 Hr) (Rle_refl r))).
      replace (u O t x + (r - t) * ut t x) with (taylor (fun k s => match k with O => u O s x | 1%nat => ut s x | _ => utt s x end) t 1 r)
        by (cbn; field).
      replace (M / 2 * (r - t) ^ 2) with (M * ((r - t) ^ 2 / INR (fact 2))) by (cbn; field).
      apply T.
      - intros [|[|k]] y Hk Hy; [apply Dt|apply Dtt|lia]; lra.
      - intros y Hy. apply (Bnd y x). lra. }
    assert (A2 : Rabs (ut s x - ut t x) <= M * (s - t)).
    { pose proof (taylor_bound t s M 0 (proj1 Hs) (fun k s => match k with O => ut s x | _ => utt s x end)) as T.
      cbv beta iota in T. specialize (fun A B => T A B s (conj (proj1 Hs) (Rle_refl s))). cbn in T.
      replace (M * (s - t)) with (M * ((s - t) * 1 / 1)) by field. apply T.
      - intros k y Hk Hy. replace k with O by lia. apply Dtt. lra.
      - intros y Hy. apply (Bnd y x). lra. }
    pose proof (space_error n s j Hn ltac:(lra) Hj) as A3. fold x in A3.
    set (D0 := M * M / 6 + Rabs mu * M / 3 + eta * (2 * M / 3)) in *.
    assert (HD0 : 0 <= D0).
    { unfold D0. pose proof (Rabs_pos mu). assert (0 <= M * M) by nra. assert (0 <= Rabs mu * M) by (apply Rmult_le_pos; auto). assert (0 <= eta * M) by (apply Rmult_le_pos; auto). lra. }
    set (fu := full n (mesh L n) mu eta (v n s) j) in *. cbv beta. fold x.
    replace (u O r x - u O t x - (r - t) * fu) with
      ((u O r x - (u O t x + (r - t) * ut t x)) + - ((r - t) * (ut s x - ut t x)) + (r - t) * (ut s x - fu)) by ring.
    eapply Rle_trans; [apply Rabs_triang|]. eapply Rle_trans; [apply Rplus_le_compat_r, Rabs_triang|].
    rewrite Rabs_Ropp, !Rabs_mult, (Rabs_pos_eq (r - t)) by lra.
    assert (P : 0 <= dt) by lra. set (h2 := mesh L n ^ 2) in *. assert (0 <= h2) by apply pow2_ge_0.
    assert (B1 : M / 2 * (r - t) ^ 2 <= M / 2 * (dt * dt)).
    { apply Rmult_le_compat_l; [lra|]. replace ((r - t) ^ 2) with ((r - t) * (r - t)) by ring. apply Rmult_le_compat; lra. }
    assert (B2 : (r - t) * Rabs (ut s x - ut t x) <= dt * (M * dt)).
    { apply Rmult_le_compat; [lra|apply Rabs_pos|lra|]. eapply Rle_trans; [exact A2|]. apply Rmult_le_compat_l; lra. }
    assert (B3 : (r - t) * Rabs (ut s x - fu) <= dt * (D0 * h2)).
    { apply Rmult_le_compat; [lra|apply Rabs_pos|lra|exact A3]. }
    unfold defect. fold D0.
    assert (0 <= dt * (3 / 2 * M * h2 + D0 * dt)).
    { apply Rmult_le_pos; auto. assert (0 <= M * h2) by (apply Rmult_le_pos; auto). assert (0 <= D0 * dt) by (apply Rmult_le_pos; auto). lra. }
    lra.
  Qed.
End Truncation.

Theorem burgers_rms (L kappa t0 t1 : R) u ut utt : 0 < L -> 0 < kappa -> burgers_solution L kappa t0 t1 u ut utt ->
  exists C n0, forall n enum x ord rpow g caches attr tau w state sv sch, (n0 <= n)%nat -> line_class L kappa n enum ord g caches attr ->
    runs t0 t1 tau w -> 0 <= tau -> 4 * kappa * tau <= mesh L n ^ 2 -> sampled L n (u O t0) state -> sv <> SOther ->
    exists traj, forecast Req_EM_T Rminus (@onestep_fun RF (list nat) sch) (generated_trend enum x ord rpow ["x"%string] g caches attr burgers) w state sv = Ok traj /\
      forall t, In t w -> is_saved w sv t -> exists s, dget Req_EM_T t traj = Some s /\
        line_rms L n (u O t) s <= C * mesh L n ^ 2 /\ within L n (C * sqrt (INR n) * mesh L n ^ 2) (u O t) s.
Proof.
  intros PL Hk BS. destruct (bs_bounded _ _ _ _ _ _ _ BS) as (M0 & BM).
  set (M := Rabs M0).
  assert (HM : 0 <= M) by apply Rabs_pos. assert (LM : M0 <= M) by apply Rle_abs.
  assert (BM' : forall t x, t0 <= t <= t1 ->
    Rabs (u O t x) <= M /\ Rabs (u 1%nat t x) <= M /\ Rabs (u 3%nat t x) <= M /\ Rabs (u 4%nat t x) <= M /\ Rabs (utt t x) <= M).
  { intros t x Ht. destruct (BM t x Ht) as (A & B & C & D & E). repeat split; lra. }
  assert (HD : 0 <= defect kappa 0 M).
  { unfold defect. assert (0 <= Rabs kappa * M) by (apply Rmult_le_pos; auto; apply Rabs_pos). nra. }
  assert (Eq : forall t x, t0 <= t <= t1 -> ut t x = - u O t x * u 1%nat t x + kappa * u 2%nat t x - 0 * u 4%nat t x).
  { intros t x Ht. rewrite (bs_equation _ _ _ _ _ _ _ BS t x Ht). ring. }
  destruct (rms_forecast kappa 0 L t0 t1 M (defect kappa 0 M) (/ (4 * kappa)) (u O) PL (or_intror (conj eq_refl Hk)) HM HD
    ltac:(left; apply Rinv_0_lt_compat; lra)) as (C & n0 & H).
  - intros n t Hn Ht. apply (all_tame L t0 t1 M u utt PL (bs_space _ _ _ _ _ _ _ BS) (bs_period _ _ _ _ _ _ _ BS) BM' n t Hn Ht).
  - intros n t dt r s j Hn H1 H2 H3 H4 Hj.
    apply (scheme_defect kappa 0 L t0 t1 M u ut utt PL (Rle_refl 0) (bs_space _ _ _ _ _ _ _ BS) (or_introl eq_refl) (bs_time _ _ _ _ _ _ _ BS)
      (bs_time2 _ _ _ _ _ _ _ BS) Eq (bs_period _ _ _ _ _ _ _ BS) BM' (or_introl eq_refl)); auto.
  - exists C, (S n0). intros n enum x ord rpow g caches attr tau w state sv sch Hn LC Hr Ht St Hs Hsv.
    assert (Hn' : (0 < n)%nat) by lia. pose proof (h_pos L PL n Hn') as Hh.
    assert (P2 : 0 < mesh L n ^ 2) by (apply pow_lt; auto).
    apply (H n tau w state sv); auto.
    + lia.
    + unfold stiff. rewrite Rabs_pos_eq by lra. apply Rmult_le_reg_r with (mesh L n ^ 2); auto.
      replace (tau * (4 * kappa / mesh L n ^ 2 + 16 * 0 / mesh L n ^ 4) * mesh L n ^ 2) with (4 * kappa * tau) by (field; lra). lra.
    + apply Rmult_le_reg_l with (4 * kappa); [lra|]. replace (4 * kappa * (/ (4 * kappa) * mesh L n ^ 2)) with (mesh L n ^ 2) by (field; lra). lra.
    + intros t s. destruct (burgers_trend L kappa n enum x ord rpow g caches attr LC PL t s) as (r & E & Hr').
      exists r. split; [exact E|]. intros j Hj. rewrite Hr' by auto. unfold full, lin. ring.
Qed.

Theorem kuramoto_rms (L kappa eta t0 t1 : R) u ut utt : 0 < L -> 0 < eta -> kuramoto_solution L kappa eta t0 t1 u ut utt ->
  exists C n0, forall n enum x ord rpow g caches attr tau w state sv sch, (n0 <= n)%nat -> kuramoto_class L kappa eta n enum ord g caches attr ->
    runs t0 t1 tau w -> 0 <= tau -> tau * (4 * Rabs kappa / mesh L n ^ 2 + 16 * eta / mesh L n ^ 4) <= 1 -> sampled L n (u O t0) state -> sv <> SOther ->
    exists traj, forecast Req_EM_T Rminus (@onestep_fun RF (list nat) sch) (generated_trend enum x ord rpow ["x"%string] g caches attr kuramoto) w state sv = Ok traj /\
      forall t, In t w -> is_saved w sv t -> exists s, dget Req_EM_T t traj = Some s /\
        line_rms L n (u O t) s <= C * mesh L n ^ 2 /\ within L n (C * sqrt (INR n) * mesh L n ^ 2) (u O t) s.
Proof.
  intros PL He KS. destruct (ks_bounded _ _ _ _ _ _ _ _ KS) as (M0 & BM).
  set (M := Rabs M0).
  assert (HM : 0 <= M) by apply Rabs_pos. assert (LM : M0 <= M) by apply Rle_abs.
  assert (BM' : forall t x, t0 <= t <= t1 ->
    Rabs (u O t x) <= M /\ Rabs (u 1%nat t x) <= M /\ Rabs (u 3%nat t x) <= M /\ Rabs (u 4%nat t x) <= M /\ Rabs (utt t x) <= M).
  { intros t x Ht. destruct (BM t x Ht) as (A & B). pose proof (A O ltac:(lia)). pose proof (A 1%nat ltac:(lia)). pose proof (A 3%nat ltac:(lia)). pose proof (A 4%nat ltac:(lia)). repeat split; lra. }
  assert (BM6 : forall t x, t0 <= t <= t1 -> Rabs (u 6%nat t x) <= M).
  { intros t x Ht. destruct (BM t x Ht) as (A & _). specialize (A 6%nat ltac:(lia)). lra. }
  assert (D4 : space_derivatives t0 t1 4 u) by (intros k t x Hk Ht; apply (ks_space _ _ _ _ _ _ _ _ KS); auto; lia).
  assert (HD : 0 <= defect (- kappa) eta M).
  { unfold defect. assert (0 <= Rabs (- kappa) * M) by (apply Rmult_le_pos; auto; apply Rabs_pos). assert (0 <= eta * M) by (apply Rmult_le_pos; lra). nra. }
  assert (Eq : forall t x, t0 <= t <= t1 -> ut t x = - u O t x * u 1%nat t x + - kappa * u 2%nat t x - eta * u 4%nat t x).
  { intros t x Ht. rewrite (ks_equation _ _ _ _ _ _ _ _ KS t x Ht). ring. }
  destruct (rms_forecast (- kappa) eta L t0 t1 M (defect (- kappa) eta M) (L ^ 2 / (16 * eta)) (u O) PL (or_introl He) HM HD
    ltac:(left; apply Rdiv_lt_0_compat; [apply pow_lt; auto|lra])) as (C & n0 & H).
  - intros n t Hn Ht. apply (all_tame L t0 t1 M u utt PL D4 (ks_period _ _ _ _ _ _ _ _ KS) BM' n t Hn Ht).
  - intros n t dt r s j Hn H1 H2 H3 H4 Hj.
    apply (scheme_defect (- kappa) eta L t0 t1 M u ut utt PL (Rlt_le _ _ He) D4 (or_intror (ks_space _ _ _ _ _ _ _ _ KS)) (ks_time _ _ _ _ _ _ _ _ KS)
      (ks_time2 _ _ _ _ _ _ _ _ KS) Eq (ks_period _ _ _ _ _ _ _ _ KS) BM' (or_intror BM6)); auto.
  - exists C, (S n0). intros n enum x ord rpow g caches attr tau w state sv sch Hn LC Hr Ht St Hs Hsv.
    assert (Hn' : (0 < n)%nat) by lia. pose proof (h_pos L PL n Hn') as Hh. pose proof (n_mesh L n Hn') as HL.
    assert (HN : 1 <= INR n) by (apply (le_INR 1); lia).
    set (h := mesh L n) in *.
    assert (P2 : 0 < h ^ 2) by (apply pow_lt; auto). assert (P4 : 0 < h ^ 4) by (apply pow_lt; auto).
    assert (hL : h <= L) by nra.
    apply (H n tau w state sv); auto.
    + lia.
    + unfold stiff. rewrite Rabs_Ropp. exact St.
    + assert (A : 16 * eta * tau <= h ^ 4).
      { apply Rmult_le_reg_r with (/ h ^ 4); [apply Rinv_0_lt_compat; auto|]. rewrite Rinv_r by lra.
        assert (0 <= tau * (4 * Rabs kappa / h ^ 2)).
        { apply Rmult_le_pos; auto. unfold Rdiv. apply Rmult_le_pos; [pose proof (Rabs_pos kappa); lra|left; apply Rinv_0_lt_compat; auto]. }
        replace (16 * eta * tau * / h ^ 4) with (tau * (16 * eta / h ^ 4)) by (field; lra). lra. }
      apply Rmult_le_reg_l with (16 * eta); [lra|]. fold h. replace (16 * eta * (L ^ 2 / (16 * eta) * h ^ 2)) with (L ^ 2 * h ^ 2) by (field; lra).
      eapply Rle_trans; [exact A|]. replace (h ^ 4) with (h ^ 2 * h ^ 2) by ring. apply Rmult_le_compat_r; [lra|]. apply pow_incr. lra.
    + intros t s. destruct (kuramoto_trend L kappa eta n enum x ord rpow g caches attr LC PL t s) as (r & E & Hr').
      exists r. split; [exact E|]. intros j Hj. rewrite Hr' by auto. unfold full, lin. fold h. ring.
Qed.
