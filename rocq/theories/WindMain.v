(** Forecasts of the generated advection models with winds that vary. *)
From Coq Require Import List Arith ZArith Bool Reals String Lia Lra Psatz Permutation FunctionalExtensionality.
From Verif Require Import PyBase PyBaseFacts Scalars FieldFacts SymModel FDExprModel FDExprSpec FDReal GridModel GridSpec ForecastModel ForecastSpec ConsistSpec ConsistMain
  SchemesModel SchemesSpec SchemesProofs LineModel LineSpec LineConv EnergySpec EnergyProofs AdvectModel AdvectSpec AdvectTrend AdvectGrid AdvectConv WindNorm WindGrid WindSpec WindConv.
Import ListNotations.
Open Scope R_scope.

Lemma flow_flowz lengths shape W : flow lengths shape W = flowz lengths shape W (fun _ => 0).
Proof.
  apply functional_extensionality. intros a. unfold flow, flowz. apply cut_eq. intros js _. ring.
Qed.
Lemma flowz_ext lengths shape W W' Z Z' : (forall k js, (k < List.length shape)%nat -> in_range shape js -> W k js = W' k js) ->
  (forall js, in_range shape js -> Z js = Z' js) -> flowz lengths shape W Z = flowz lengths shape W' Z'.
Proof.
  intros H HZ. apply functional_extensionality. intros a. unfold flowz. apply cut_eq. intros js Hj. rewrite HZ by auto. f_equal. unfold transported. f_equal.
  apply over_ext. intros k Hk. rewrite H by auto. reflexivity.
Qed.
Lemma arrays_along n dx w k : (k < n)%nat -> wind_along (wind_arrays n dx w) k = sample dx (w k).
Proof.
  intros Hk. unfold wind_along, wind_arrays. rewrite (nth_indep _ (fun _ => 0) (sample dx (w O))) by (rewrite map_length, seq_length; auto).
  rewrite (map_nth (fun k => sample dx (w k))), seq_nth by auto. reflexivity.
Qed.
Lemma exp_le a b : a <= b -> exp a <= exp b.
Proof. intros H. destruct (Rle_lt_or_eq_dec _ _ H) as [L|E]; [left; apply exp_increasing; auto|rewrite E; lra]. Qed.

(** ** the accumulation of the errors of the steps *)
Lemma accumulate (K s d Q : R) : 0 <= K -> 0 <= s -> 0 <= d -> 0 <= Q ->
  (1 + d * K) * (s * Q * exp (K * s)) + d * Q <= (s + d) * Q * exp (K * (s + d)).
Proof.
  intros HK Hs Hd HQ. assert (P : 0 <= s * Q) by (apply Rmult_le_pos; auto). assert (Pd : 0 <= d * Q) by (apply Rmult_le_pos; auto).
  pose proof (exp_ineq1_le (K * d)) as E. pose proof (exp_pos (K * s)) as P1.
  assert (E2 : exp (K * (s + d)) = exp (K * s) * exp (K * d)) by (rewrite <- exp_plus; f_equal; ring).
  assert (E3 : 1 <= exp (K * (s + d))). { rewrite <- exp_0. apply exp_le. apply Rmult_le_pos; lra. }
  assert ((1 + d * K) * (s * Q * exp (K * s)) <= s * Q * exp (K * (s + d))).
  { rewrite E2. replace ((1 + d * K) * (s * Q * exp (K * s))) with (s * Q * exp (K * s) * (1 + K * d)) by ring. rewrite <- Rmult_assoc.
    apply Rmult_le_compat_l; auto. apply Rmult_le_pos; lra. }
  assert (d * Q * 1 <= d * Q * exp (K * (s + d))) by (apply Rmult_le_compat_l; auto). lra.
Qed.

Section Errors.
  Variables (lengths : list R) (w : nat -> point -> R) (z : point -> R) (t0 t1 : R) (u : nat -> R -> multi -> point -> R) (V L : nat -> R) (zeta kz : R).
  Notation n := (List.length lengths).
  Hypothesis VW : variable_winds n lengths w V L.
  Hypothesis EV : evolution n lengths (fun U p => carried_by n w U p + z p * U none p) t0 t1 u.
  Hypothesis Pk : 0 <= kz.
  Notation b := (zeta + / 2 * sumk n L).
  Definition rate : R := b * exp (2 * sqrt 2 + (t1 - t0) * b).
  (** a step of the model from a state close to the solution *)
  Lemma error_step : exists C, 0 <= C /\ forall shape Z hm tau t dt v, List.length shape = n -> (forall m, In m shape -> m <> O) ->
    (forall k, (k < List.length shape)%nat -> 0 < step_of lengths shape k) -> (forall k, (k < n)%nat -> dxf lengths shape k <= hm) ->
    (forall js, in_range shape js -> Rabs (Z js) <= zeta) ->
    (forall js, in_range shape js -> Rabs (Z js - z (grid_point (spacings lengths shape) js)) <= kz * hm ^ 2) ->
    t0 <= t -> 0 <= dt <= tau -> t + dt <= t1 -> tau * courant lengths shape V <= 2 * sqrt 2 ->
    norm (dot shape) (vsub v (cut shape (sample (spacings lengths shape) (u O t none))))
      <= sqrt (points shape) * ((t - t0) * (C * (tau ^ 4 + hm ^ 2)) * exp (rate * (t - t0))) ->
    norm (dot shape) (vsub (@exp_taylor RF (list nat) (flowz lengths shape (fun k => sample (spacings lengths shape) (w k)) Z) dt 4 v)
      (cut shape (sample (spacings lengths shape) (u O (t + dt) none))))
      <= sqrt (points shape) * ((t + dt - t0) * (C * (tau ^ 4 + hm ^ 2)) * exp (rate * (t + dt - t0))).
  Proof.
    destruct (Rlt_dec t0 t1) as [H01|N01].
    2:{ exists 0. split; [lra|]. intros shape Z hm tau t dt v _ _ _ _ _ _ H1 H2 H3 _ H. assert (Ed : dt = 0) by lra. replace (t + dt) with t by lra.
        assert (X : forall f d, d = 0 -> @exp_taylor RF (list nat) f d 4 v = v).
        { intros f d ->. apply functional_extensionality. intros js. cbn [exp_taylor]. unfold vadd, vscale. 
          rewrite !coefficient. rewrite !pow_i by lia. unfold Rdiv.
          cbn [fadd fmul RF F]. match goal with |- @eq _ ?a ?b => change (@eq R a b) end. ring. }
        rewrite X by auto. exact H. }
    destruct (local_wind lengths w z t0 t1 u V L zeta kz VW EV H01 Pk) as (C & PC & HC). exists C. split; auto.
    intros shape Z hm tau t dt v Ls Hn Hd Hh HZ HZc H1 [H2 H4] H3 Cr H.
    set (A := flowz lengths shape (fun k => sample (spacings lengths shape) (w k)) Z).
    set (ex := fun t => cut shape (sample (spacings lengths shape) (u O t none))). fold (ex t) in H. fold (ex (t + dt)).
    set (Q := C * (tau ^ 4 + hm ^ 2)) in *. set (S := sqrt (points shape)) in *.
    assert (PS : 0 <= S) by apply sqrt_pos.
    assert (PQ : 0 <= Q) by (unfold Q; apply Rmult_le_pos; auto; assert (0 <= tau ^ 4) by (apply pow_le; lra); nra).
    pose proof (b_nonneg lengths w V L zeta VW shape Z Ls Hn Hd HZ) as Pb.
    assert (PR : 0 <= rate) by (apply Rmult_le_pos; auto; apply Rlt_le, exp_pos).
    assert (NEs := NE shape Hn).
    assert (PC' : 0 <= courant lengths shape V).
    { apply (courant_nonneg lengths shape Hd NEs (fun k => sample (spacings lengths shape) (w k)) V). intros; apply (speed_grid lengths w V L VW shape Ls); auto. }
    assert (Cr' : dt * courant lengths shape V <= 2 * sqrt 2) by (eapply Rle_trans; [apply Rmult_le_compat_r; [exact PC'|exact H4]|exact Cr]).
    eapply Rle_trans; [apply (norm_sub_triangle (dot shape) (dot_inner shape) _ (@exp_taylor RF (list nat) A dt 4 (ex t)))|].
    unfold vsub at 1. rewrite <- exp_sub_linear by apply flowz_linear. fold (vsub v (ex t)).
    pose proof (growth_step lengths w t0 t1 V L zeta VW shape Z Ls Hn Hd HZ dt (vsub v (ex t)) ltac:(lra) Cr') as G. fold A in G. fold rate in G.
    pose proof (HC shape Z hm t dt Ls Hn Hd Hh HZ HZc H1 H2 H3 Cr') as G2. fold A in G2. fold (ex t) in G2. fold (ex (t + dt)) in G2. fold S in G2.
    assert (G3 : C * (dt ^ 4 + hm ^ 2) <= Q).
    { unfold Q. apply Rmult_le_compat_l; auto. apply Rplus_le_compat_r. apply pow_incr. lra. }
    apply Rle_trans with ((1 + dt * rate) * (S * ((t - t0) * Q * exp (rate * (t - t0)))) + S * (dt * Q)).
    - apply Rplus_le_compat.
      + eapply Rle_trans; [exact G|]. apply Rmult_le_compat_l; auto. assert (0 <= dt * rate) by (apply Rmult_le_pos; auto). lra.
      + eapply Rle_trans; [exact G2|]. apply Rmult_le_compat_l; auto. apply Rmult_le_compat_l; auto.
    - pose proof (accumulate rate (t - t0) dt Q PR ltac:(lra) H2 PQ) as Ac. replace (t - t0 + dt) with (t + dt - t0) in Ac by ring.
      apply (Rmult_le_compat_l S) in Ac; auto. eapply Rle_trans; [|exact Ac]. apply Req_le. ring.
  Qed.
End Errors.

(** ** the generated models *)
Section Growth.
  Variables (c : advect) (lengths : list R) (shape : list nat) (W : list (list nat -> R)).
  Variables (enum : list sx -> list sx) (x : nat -> R) (ord : list datom -> list datom).
  Variables (rpow : R -> R -> R) (g : @grid RF) (caches : R -> list (string * nat) -> (list nat -> R) -> cache).
  Variable attr : string -> res (list nat -> R).
  Hypothesis AC : advect_class c lengths shape W enum ord g caches attr.
  Variables V L : nat -> R.
  Hypothesis HV : forall k js, (k < List.length shape)%nat -> in_range shape js -> Rabs (wind_along W k js) <= V k.
  Hypothesis HL : forall k js, (k < List.length shape)%nat -> in_range shape js ->
    Rabs (wind_along W k (next shape k js) - wind_along W k js) <= L k * step_of lengths shape k.
  Notation trend := (generated_trend enum x ord rpow (axes c) g caches attr (advection c)).
  Lemma model_growth tau w state sv t0 : nth_error w 0 = Some t0 -> sv <> SOther -> by_steps tau w -> tau * courant lengths shape V <= 2 * sqrt 2 ->
    exists traj, forecast Req_EM_T Rminus (@rk4 RF (list nat)) trend w state sv = Ok traj /\
      forall t, In t w -> is_saved w sv t -> exists r, dget Req_EM_T t traj = Some r /\
        energy shape r <= exp (2 * growth (List.length shape) L tau * (t - t0)) * energy shape state.
  Proof.
    intros W0 Hs B C. set (K := growth (List.length shape) L tau).
    pose proof (steps_pos c lengths shape W enum ord g caches attr AC) as Hd. pose proof (some_point c lengths shape W enum ord g caches attr AC) as NEs.
    set (zero := fun _ : list nat => 0). assert (HZ : forall js, in_range shape js -> Rabs (zero js) <= 0) by (intros; unfold zero; rewrite Rabs_R0; lra).
    assert (Sb : shear shape L 0 = fold_right Rplus 0 (map L (seq 0 (List.length shape))) / 2) by (unfold shear, over_axes; field).
    pose proof (shear_nonneg lengths shape Hd NEs (wind_along W) zero L 0 HL HZ) as Ps.
    pose proof (courant_nonneg lengths shape Hd NEs (wind_along W) V HV) as Pc.
    destruct (forecast_keeps (@rk4 RF (list nat)) trend (fun t r => t0 <= t /\ energy shape r <= exp (2 * K * (t - t0)) * energy shape state) w state sv t0) as (traj & E & H); auto.
    - split; [lra|]. replace (2 * K * (t0 - t0)) with 0 by ring. rewrite exp_0. lra.
    - intros k t t' r Hk Hk' [Ht Hr]. destruct (step_view c lengths shape W enum x ord rpow g caches attr AC SRk4 t (t' - t) r) as (r' & Er & Ev).
      exists r'. split; [exact Er|]. cbn [onestep_order] in Ev. destruct (B k t t' Hk Hk') as [B1 B2]. split; [lra|].
      rewrite energy_view, Ev, flow_flowz. rewrite energy_view in Hr.
      assert (Ct : (t' - t) * courant lengths shape V <= 2 * sqrt 2) by (eapply Rle_trans; [apply Rmult_le_compat_r; [exact Pc|]|exact C]; lra).
      pose proof (flowz_rk4 lengths shape Hd NEs (wind_along W) zero V L 0 HV HL HZ (t' - t) (view shape r) ltac:(lra) Ct) as G. rewrite Sb in G, Ps.
      set (s := fold_right Rplus 0 (map L (seq 0 (List.length shape))) / 2) in *.
      fold zero. set (y := @exp_taylor RF (list nat) (flowz lengths shape (wind_along W) zero) (t' - t)%R 4 (view shape r)) in *.
      assert (Kle : (t' - t) * s * exp (2 * sqrt 2 + (t' - t) * s) <= (t' - t) * K).
      { unfold K, growth. cbv zeta. fold s. rewrite Rmult_assoc. apply Rmult_le_compat_l; [lra|]. apply Rmult_le_compat_l; auto. apply exp_le.
        apply Rplus_le_compat_l. apply Rmult_le_compat_r; auto. lra. }
      assert (PK : 0 <= K) by (apply Rmult_le_pos; auto; apply Rlt_le, exp_pos).
      rewrite <- (norm_sq (dot shape) (dot_inner shape) y). pose proof (norm_pos (dot shape) y) as Py. pose proof (norm_pos (dot shape) (view shape r)) as Pv.
      assert (G2 : norm (dot shape) y <= (1 + (t' - t) * K) * norm (dot shape) (view shape r)) by (eapply Rle_trans; [exact G|]; apply Rmult_le_compat_r; auto; lra).
      apply Rle_trans with ((1 + (t' - t) * K) * norm (dot shape) (view shape r) * ((1 + (t' - t) * K) * norm (dot shape) (view shape r))); [apply Rmult_le_compat; auto|].
      replace ((1 + (t' - t) * K) * norm (dot shape) (view shape r) * ((1 + (t' - t) * K) * norm (dot shape) (view shape r)))
        with ((1 + (t' - t) * K) * (1 + (t' - t) * K) * (norm (dot shape) (view shape r) * norm (dot shape) (view shape r))) by ring.
      rewrite (norm_sq (dot shape) (dot_inner shape)).
      pose proof (exp_square ((t' - t) * K) ltac:(apply Rmult_le_pos; lra)) as X. 
      apply Rle_trans with (exp (2 * ((t' - t) * K)) * (exp (2 * K * (t - t0)) * energy shape state)).
      + apply Rmult_le_compat; auto.
        * apply Rle_0_sqr.
        * apply (ip_pos _ (dot_inner shape)).
      + rewrite <- Rmult_assoc, <- exp_plus. apply Req_le. f_equal. f_equal. ring.
    - exists traj. split; [exact E|]. intros t H1 H2. destruct (H t H1 H2) as (r & G & _ & Hr). exists r. split; auto.
  Qed.
End Growth.

Lemma points_pos shape : (forall m, In m shape -> m <> O) -> 0 < points shape.
Proof.
  intros Hn. induction shape as [|m s IH]; cbn; [lra|]. apply Rmult_lt_0_compat; [apply (lt_INR 0); specialize (Hn m (or_introl eq_refl)); lia|].
  apply IH. intros; apply Hn; right; auto.
Qed.
Lemma rms_norm lengths shape (f : point -> R) r : (forall m, In m shape -> m <> O) ->
  rms_error (spacings lengths shape) shape f r = norm (dot shape) (vsub (view shape r) (cut shape (sample (spacings lengths shape) f))) / sqrt (points shape).
Proof.
  intros Hn. unfold rms_error. rewrite sqrt_div_alt by (apply points_pos; auto). f_equal. unfold norm, dot. f_equal. apply gs_ext. intros js Hj.
  assert (Ee : vsub (view shape r) (cut shape (sample (spacings lengths shape) f)) js = field r js - f (grid_point (spacings lengths shape) js)); [|rewrite Ee; reflexivity].
  unfold vsub, vadd, vscale. cbn [fadd fmul RF F]. unfold view. rewrite !cut_in by auto. unfold sample. cbn. ring.
Qed.
Lemma evolution_zero n lengths w t0 t1 u : evolution n lengths (carried_by n w) t0 t1 u ->
  evolution n lengths (fun U p => carried_by n w U p + 0 * U none p) t0 t1 u.
Proof. intros [H1 H2 H3 H4 H5]. split; auto. intros t p Ht. rewrite H3 by auto. ring. Qed.

Theorem wind_forecast lengths w V L t0 t1 u : variable_winds (List.length lengths) lengths w V L ->
  evolution (List.length lengths) lengths (carried_by (List.length lengths) w) t0 t1 u ->
  exists C, forall c shape enum x ord rpow (g : @grid RF) caches attr tau win state sv,
    advect_class c lengths shape (wind_arrays (List.length lengths) (g_dx g) w) enum ord g caches attr ->
    runs t0 t1 tau win -> (forall js, in_range shape js -> field state js = u O t0 none (grid_point (g_dx g) js)) ->
    0 <= tau -> tau * courant lengths shape V <= 2 * sqrt 2 -> sv <> SOther ->
    exists traj, forecast Req_EM_T Rminus (@rk4 RF (list nat)) (generated_trend enum x ord rpow (axes c) g caches attr (advection c)) win state sv = Ok traj /\
      forall t, In t win -> is_saved win sv t -> exists r, dget Req_EM_T t traj = Some r /\
        rms_error (g_dx g) shape (u O t none) r <= C * (tau ^ 4 + largest (g_dx g) ^ 2).
Proof.
  intros VW EV0. pose proof (evolution_zero _ _ _ _ _ _ EV0) as EV.
  destruct (error_step lengths w (fun _ => 0) t0 t1 u V L 0 0 VW EV ltac:(lra)) as (C & PC & HC).
  set (K := rate lengths t0 t1 L 0) in *.
  exists ((t1 - t0) * C * exp (Rabs K * (t1 - t0))).
  intros c shape enum x ord rpow g caches attr tau win state sv AC (W0 & W1 & W2) Hs Ht Cr Hsv.
  assert (T01 : t0 <= t1) by (apply W2; eapply nth_error_In; eauto).
  destruct (shape_ok c lengths shape _ enum ord g caches attr AC) as [Ls Hn].
  pose proof (sides_length c lengths shape _ enum ord g caches attr AC) as Ll.
  pose proof (steps_pos c lengths shape _ enum ord g caches attr AC) as Hd.
  pose proof (sides_pos c lengths shape _ enum ord g caches attr AC) as Hp.
  pose proof (dx_ok c lengths shape _ enum ord g caches attr AC) as Edx.
  set (trend := generated_trend enum x ord rpow (axes c) g caches attr (advection c)).
  set (h := largest (spacings lengths shape)) in *.
  assert (Hh : forall k, (k < List.length lengths)%nat -> dxf lengths shape k <= h).
  { intros k Hk. apply (ConsistMain.spacing_bounds (axes c) lengths Ll Hp shape); auto. lia. }
  set (zero := fun _ : list nat => 0).
  set (A := flowz lengths shape (fun k => sample (spacings lengths shape) (w k)) zero).
  assert (EA : flow lengths shape (wind_along (wind_arrays (List.length lengths) (g_dx g) w)) = A).
  { rewrite flow_flowz. apply flowz_ext; auto. intros k js Hk _. rewrite arrays_along by lia. rewrite Edx. reflexivity. }
  set (ex := fun t => cut shape (sample (spacings lengths shape) (u O t none))).
  destruct (forecast_keeps (@rk4 RF (list nat)) trend
    (fun t r => t0 <= t <= t1 /\ norm (dot shape) (vsub (view shape r) (ex t)) <= sqrt (points shape) * ((t - t0) * (C * (tau ^ 4 + h ^ 2)) * exp (K * (t - t0)))) win state sv t0 Hsv W0) as (traj & E & H).
  - split; [lra|]. rewrite (norm_zero (dot shape) (dot_inner shape)).
    + replace (t0 - t0) with 0 by ring. lra.
    + intros js. unfold vsub, vadd, vscale. cbn [fadd fmul RF F]. unfold view, ex, cut. destruct (inb shape js) eqn:I; [|cbn; ring].
      apply inb_iff in I. rewrite Hs by auto. rewrite Edx. unfold sample. cbn. ring.
  - intros k t t' r Hk1 Hk2 ([T1 T2] & HE).
    destruct (W1 k t t' Hk1 Hk2) as [S1 S2]. pose proof (W2 t' (nth_error_In _ _ Hk2)) as S3.
    destruct (step_view c lengths shape _ enum x ord rpow g caches attr AC SRk4 t (t' - t) r) as (r' & Er & Ev).
    exists r'. split; [exact Er|]. split; [lra|]. cbn [onestep_order] in Ev. rewrite Ev, EA.
    pose proof (HC shape zero h tau t (t' - t) (view shape r) ltac:(lia) Hn Hd Hh) as X. replace (t + (t' - t)) with t' in X by ring.
    apply X; auto; try lra.
    + intros; unfold zero; rewrite Rabs_R0; lra.
    + intros; unfold zero. rewrite Rminus_diag_eq, Rabs_R0 by auto. lra.
  - exists traj. split; [exact E|]. intros t Ht1 Ht2. destruct (H t Ht1 Ht2) as (r & G & [T1 T2] & HE).
    exists r. split; [exact G|]. rewrite Edx, rms_norm by auto. fold (ex t). fold h.
    pose proof (points_pos shape Hn) as PP. assert (PS : 0 < sqrt (points shape)) by (apply sqrt_lt_R0; auto).
    apply (Rmult_le_reg_r (sqrt (points shape))); auto. unfold Rdiv. rewrite Rmult_assoc, Rinv_l, Rmult_1_r by lra. eapply Rle_trans; [exact HE|].
    rewrite Rmult_comm. apply Rmult_le_compat_r; [lra|].
    set (Q := tau ^ 4 + h ^ 2). assert (PQ : 0 <= Q) by (unfold Q; assert (0 <= tau ^ 4) by (apply pow_le; lra); nra).
    replace ((t1 - t0) * C * exp (Rabs K * (t1 - t0)) * Q) with ((t1 - t0) * (C * Q) * exp (Rabs K * (t1 - t0))) by ring.
    assert (0 <= C * Q) by (apply Rmult_le_pos; auto). apply Rmult_le_compat.
    + apply Rmult_le_pos; lra.
    + apply Rlt_le, exp_pos.
    + apply Rmult_le_compat_r; lra.
    + apply exp_le. apply Rle_trans with (Rabs K * (t - t0)).
      * apply Rmult_le_compat_r; [lra|apply Rle_abs].
      * apply Rmult_le_compat_l; [apply Rabs_pos|lra].
Qed.
