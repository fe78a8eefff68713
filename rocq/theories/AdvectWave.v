(** The four-point wave in the generated advection models, and a travelling wave in the plane. *)
From Coq Require Import List Arith ZArith Bool Reals String Lia Lra Psatz Permutation FunctionalExtensionality.
From Verif Require Import PyBase PyBaseFacts Scalars FieldFacts SymModel PDEModel CodegenModel CodegenSpec FDExprModel FDExprSpec FDExprProofs FDSpec FDReal GridModel GridSpec GridProofs GridMore
  ForecastModel ForecastSpec ConsistSpec ConsistModel ConsistProofs ConsistMain SchemesModel SchemesSpec SchemesProofs LineModel LineSpec LineProofs LineConv LineCases EnergySpec EnergyProofs
  AdvectModel AdvectSpec AdvectTrend AdvectGrid AdvectConv.
Import ListNotations.
Open Scope R_scope.

(** ** the wave of four points *)
Definition wave_before (k : nat) (js : list nat) : R :=
  match (nth k js O mod 4)%nat with 1%nat => 1 | 3%nat => -1 | _ => 0 end.
Lemma quarters m : (m mod 4 = 0 \/ m mod 4 = 1 \/ m mod 4 = 2 \/ m mod 4 = 3)%nat.
Proof. pose proof (Nat.mod_upper_bound m 4). lia. Qed.
Section Wave.
  Variables (lengths : list R) (shape : list nat) (k : nat) (q : nat).
  Hypothesis Hk : (k < List.length shape)%nat.
  Hypothesis Hq : nth k shape O = (4 * q)%nat.
  Hypothesis Hd : forall i, (i < List.length shape)%nat -> 0 < step_of lengths shape i.
  Notation h := (step_of lengths shape k).
  Lemma next_at js : in_range shape js -> nth k (next shape k js) O = ((nth k js O + 1) mod (4 * q))%nat.
  Proof. intros H. unfold next. rewrite nth_replace by (rewrite (ConsistMain.in_range_length _ _ H); auto). rewrite Hq. reflexivity. Qed.
  Lemma prev_at js : in_range shape js -> nth k (prev shape k js) O = ((nth k js O + 4 * q - 1) mod (4 * q))%nat.
  Proof. intros H. unfold prev. rewrite nth_replace by (rewrite (ConsistMain.in_range_length _ _ H); auto). rewrite Hq. reflexivity. Qed.
  Lemma mod_mod4 m : q <> O -> ((m mod (4 * q)) mod 4 = m mod 4)%nat.
  Proof.
    intros N. rewrite (Nat.div_mod m (4 * q)) at 2 by lia.
    replace (4 * q * (m / (4 * q)) + m mod (4 * q))%nat with (m mod (4 * q) + (q * (m / (4 * q))) * 4)%nat by ring.
    rewrite Nat.mod_add by lia. reflexivity.
  Qed.
  Lemma next4 js : in_range shape js -> (nth k (next shape k js) O mod 4 = (nth k js O mod 4 + 1) mod 4)%nat.
  Proof.
    intros H. pose proof (in_range_nth _ _ _ H Hk) as B. rewrite Hq in B. rewrite next_at, mod_mod4 by (auto; lia).
    rewrite Nat.add_mod_idemp_l by lia. reflexivity.
  Qed.
  Lemma prev4 js : in_range shape js -> (nth k (prev shape k js) O mod 4 = (nth k js O mod 4 + 3) mod 4)%nat.
  Proof.
    intros H. pose proof (in_range_nth _ _ _ H Hk) as B. rewrite Hq in B. rewrite prev_at, mod_mod4 by (auto; lia).
    rewrite Nat.add_mod_idemp_l by lia.
    replace (nth k js O + 4 * q - 1)%nat with (nth k js O + 3 + (q - 1) * 4)%nat by lia. apply Nat.mod_add. lia.
  Qed.
  Lemma slope_wave js : in_range shape js -> slope lengths shape k (wave k) js = - (wave_before k js / h).
  Proof.
    intros H. unfold slope, wave, wave_before. rewrite next4, prev4 by auto. pose proof (Hd k Hk).
    destruct (quarters (nth k js O)) as [-> | [-> | [-> | -> ]]]; cbn; field; lra.
  Qed.
  Lemma slope_before js : in_range shape js -> slope lengths shape k (wave_before k) js = wave k js / h.
  Proof.
    intros H. unfold slope, wave, wave_before. rewrite next4, prev4 by auto. pose proof (Hd k Hk).
    destruct (quarters (nth k js O)) as [-> | [-> | [-> | -> ]]]; cbn; field; lra.
  Qed.
  Lemma nth_other i v : i <> k -> forall js, nth k (replace i v js) O = nth k js O.
  Proof.
    clear. intros N js. revert i k N. induction js as [|j js IH]; intros [|i] [|k] N; cbn; auto; try congruence.
  Qed.
  Lemma slope_other i (p : nat -> R) js : (i < List.length shape)%nat -> i <> k -> slope lengths shape i (fun js => p (nth k js O)) js = 0.
  Proof.
    intros Hi N. unfold slope, next, prev. rewrite !nth_other by auto. pose proof (Hd i Hi). field. lra.
  Qed.
  Variables (W : nat -> list nat -> R) (v : R).
  Hypothesis HW : forall js, in_range shape js -> W k js = v.
  Lemma flow_along (p : nat -> R) (r : R) js : in_range shape js -> slope lengths shape k (fun js => p (nth k js O)) js = r ->
    flow lengths shape W (cut shape (fun js => p (nth k js O))) js = - (v * r).
  Proof.
    intros H E. unfold flow. rewrite cut_in by auto. unfold transported. f_equal. unfold over_axes.
    rewrite (seq_app k (List.length shape - k) 0) || (replace (List.length shape) with (k + (List.length shape - k))%nat by lia; rewrite seq_app).
    destruct (List.length shape - k)%nat as [|m] eqn:Em; [lia|]. cbn [seq Nat.add]. rewrite map_app, fold_right_app. cbn [map fold_right].
    assert (Z : forall l, (forall i, In i l -> (i < List.length shape)%nat /\ i <> k) ->
      map (fun k0 => W k0 js * slope lengths shape k0 (cut shape (fun js0 => p (nth k js0 O))) js) l = map (fun _ => 0) l).
    { intros l Hl. apply map_ext_in. intros i Hi. destruct (Hl i Hi) as [H1 H2].
      rewrite (slope_ext lengths shape i _ (fun js => p (nth k js O))); auto; [|intros; apply cut_in; auto]. rewrite slope_other by auto. ring. }
    assert (F0 : forall (l : list nat) z, fold_right Rplus z (map (fun _ => 0) l) = z) by (induction l as [|a l IH]; intros z; cbn; auto; rewrite IH; ring).
    rewrite Z by (intros i Hi; apply in_seq in Hi; lia). rewrite F0. rewrite Z by (intros i Hi; apply in_seq in Hi; lia). rewrite F0.
    rewrite (slope_ext lengths shape k _ (fun js => p (nth k js O))); auto; [|intros; apply cut_in; auto]. rewrite E, HW by auto. ring.
  Qed.
  Lemma wave_mode eps : mode (flow lengths shape W) (v / h) (@vscale RF (list nat) eps (cut shape (wave k))).
  Proof.
    unfold mode. destruct (flow_linear lengths shape W) as [L1 L2]. pose proof (Hd k Hk) as Ph.
    assert (E1 : flow lengths shape W (cut shape (wave k)) = @vscale RF (list nat) (v / h)%R (cut shape (wave_before k))).
    { apply functional_extensionality. intros js. destruct (inb shape js) eqn:I.
      - apply inb_iff in I. transitivity (- (v * - (wave_before k js / h))); [exact (flow_along (fun j => match (j mod 4)%nat with O => 1 | 2%nat => -1 | _ => 0 end) _ js I (slope_wave js I))|].
        unfold vscale. cbn. rewrite cut_in by auto. field. lra.
      - unfold flow, vscale, cut. rewrite I. cbn. ring. }
    assert (E2 : flow lengths shape W (cut shape (wave_before k)) = @vscale RF (list nat) (- (v / h))%R (cut shape (wave k))).
    { apply functional_extensionality. intros js. destruct (inb shape js) eqn:I.
      - apply inb_iff in I. transitivity (- (v * (wave k js / h))); [exact (flow_along (fun j => match (j mod 4)%nat with 1%nat => 1 | 3%nat => -1 | _ => 0 end) _ js I (slope_before js I))|].
        unfold vscale. cbn. rewrite cut_in by auto. field. lra.
      - unfold flow, vscale, cut. rewrite I. cbn. ring. }
    rewrite L2, E1, L2, L2, E2. apply functional_extensionality. intros js. unfold vscale. cbn. ring.
  Qed.
End Wave.

(** ** many steps *)
Section Power.
  Variables (c : advect) (lengths : list R) (shape : list nat) (W : list (list nat -> R)).
  Variables (enum : list sx -> list sx) (x : nat -> R) (ord : list datom -> list datom).
  Variables (rpow : R -> R -> R) (g : @grid RF) (caches : R -> list (string * nat) -> (list nat -> R) -> cache).
  Variable attr : string -> res (list nat -> R).
  Hypothesis AC : advect_class c lengths shape W enum ord g caches attr.
  Notation trend := (generated_trend enum x ord rpow (axes c) g caches attr (advection c)).
  Notation f := (flow lengths shape (wind_along W)).
  Lemma forecast_power s t0 dt N state : dt <> 0 ->
    exists traj r, forecast Req_EM_T Rminus (@onestep_fun RF (list nat) s) trend (times t0 dt N) state SNone = Ok traj /\
      dget Req_EM_T (t0 + INR N * dt) traj = Some r /\ view shape r = Nat.iter N (@exp_taylor RF (list nat) f dt (onestep_order s)) (view shape state).
  Proof.
    intros Hd.
    destruct (forecast_keeps (@onestep_fun RF (list nat) s) trend
      (fun t r => exists k, t = t0 + INR k * dt /\ view shape r = Nat.iter k (@exp_taylor RF (list nat) f dt (onestep_order s)) (view shape state))
      (times t0 dt N) state SNone t0) as (traj & Et & H).
    - discriminate.
    - unfold times. cbn. f_equal. ring.
    - exists O. split; [cbn; ring|]. reflexivity.
    - intros i t t' r Hi Hi' (k & Ek & Hr). pose proof (times_step _ _ _ _ _ _ Hi Hi') as Ed.
      destruct (step_view c lengths shape W enum x ord rpow g caches attr AC s t (t' - t)%R r) as (r' & Er & Ev).
      exists r'. split; [exact Er|]. exists (S k). split; [rewrite S_INR; lra|]. rewrite Ev, Ed, Hr. reflexivity.
    - destruct (H _ (times_last t0 dt N) (times_last t0 dt N)) as (r & G & k & Ek & Hr).
      exists traj, r. split; [exact Et|]. split; [exact G|].
      assert (k = N) as ->. { apply INR_eq. apply (Rmult_eq_reg_r dt); lra. } exact Hr.
  Qed.
  Lemma iter_sub (E : (list nat -> R) -> list nat -> R) :
    (forall a b, E (@vadd RF (list nat) a (@vscale RF (list nat) (-1) b)) = @vadd RF (list nat) (E a) (@vscale RF (list nat) (-1) (E b))) ->
    forall N a b, Nat.iter N E (@vadd RF (list nat) a (@vscale RF (list nat) (-1) b)) =
      @vadd RF (list nat) (Nat.iter N E a) (@vscale RF (list nat) (-1) (Nat.iter N E b)).
  Proof.
    intros H N a b. induction N as [|N IH]; [reflexivity|]. change (Nat.iter (S N) E) with (fun z => E (Nat.iter N E z)). cbv beta. rewrite IH. apply H.
  Qed.
  Lemma iter_energy s m dt : conservative (dot shape) f -> forall N z, mode f m z ->
    mode f m (Nat.iter N (@exp_taylor RF (list nat) f dt (onestep_order s)) z) /\
    dot shape (Nat.iter N (@exp_taylor RF (list nat) f dt (onestep_order s)) z) (Nat.iter N (@exp_taylor RF (list nat) f dt (onestep_order s)) z)
    = factor s ((dt * m) ^ 2) ^ N * dot shape z z.
  Proof.
    intros CF N z Hz. induction N as [|N [IM IE]]; [split; auto; cbn; ring|].
    set (E := @exp_taylor RF (list nat) f dt (onestep_order s)) in *. change (Nat.iter (S N) E z) with (E (Nat.iter N E z)).
    split; [apply (mode_exp f (flow_linear lengths shape (wind_along W))); auto|].
    pose proof (exp_gain (dot shape) f (dot_inner shape) (flow_linear lengths shape (wind_along W)) CF s dt (Nat.iter N E z)) as G. cbv zeta in G. fold E in G.
    rewrite G, (mode_gain (dot shape) f (dot_inner shape) (flow_linear lengths shape (wind_along W)) CF s m dt _ IM). rewrite IE. cbn [pow]. ring.
  Qed.
  Lemma gap_view a b : gap shape a b = dot shape (@vadd RF (list nat) (view shape a) (@vscale RF (list nat) (-1) (view shape b)))
     (@vadd RF (list nat) (view shape a) (@vscale RF (list nat) (-1) (view shape b))).
  Proof.
    unfold gap, dot. apply gs_ext. intros js H. unfold vadd, vscale. cbn [fadd fmul RF F]. unfold view. rewrite !cut_in by auto. cbn. ring.
  Qed.
  Lemma wave_energy k : (k < List.length shape)%nat -> 0 < dot shape (cut shape (wave k)) (cut shape (wave k)).
  Proof.
    intros Hk. destruct (shape_ok c lengths shape W enum ord g caches attr AC) as [_ Hn].
    set (z := map (fun _ => O) shape).
    assert (Hz : in_range shape z). { unfold z. clear - Hn. induction shape as [|m s IH]; constructor; [specialize (Hn m (or_introl eq_refl)); lia|]. apply IH; intros; apply Hn; right; auto. }
    assert (Z0 : wave k z = 1). { unfold wave, z. replace (nth k (map (fun _ => O) shape) O) with O; [reflexivity|].
      clear. revert k. induction shape as [|m s IH]; intros [|k]; cbn; auto. }
    assert (P : forall s (a : list nat -> R) z, in_range s z -> (forall js, in_range s js -> 0 <= a js) -> a z <= GS s a).
    { clear. unfold GS. induction s as [|n s IH]; intros a z Hz Pa; [inversion Hz; cbn; lra|].
      inversion Hz as [|? j ? js Hj Hjs]; subst. cbn [gsum].
      assert (Q : forall N, (j < N)%nat -> (N <= n)%nat -> a (j :: js) <= @fsum RF N (fun i => @gsum RF s (fun l => a (i :: l)))).
      { induction N as [|N IHN]; intros H1 H2; [lia|]. cbn [fsum fadd RF].
        assert (P0 : forall i, (i < n)%nat -> 0 <= @gsum RF s (fun l => a (i :: l))) by (intros i Hi; apply (gs_nonneg s); intros l Hl; apply Pa; constructor; auto).
        destruct (Nat.eq_dec j N) as [->|Ne].
        - pose proof (IH (fun l => a (N :: l)) js Hjs ltac:(intros l Hl; apply Pa; constructor; auto)) as X. cbv beta in X.
          pose proof (fsum_nonneg N (fun i => @gsum RF s (fun l => a (i :: l))) ltac:(intros; apply P0; lia)). lra.
        - pose proof (IHN ltac:(lia) ltac:(lia)). pose proof (P0 N ltac:(lia)). lra. }
      apply Q; lia. }
    pose proof (P shape (fun js => cut shape (wave k) js * cut shape (wave k) js) z Hz ltac:(intros; nra)) as X. cbv beta in X.
    rewrite cut_in, Z0 in X by auto. unfold dot. lra.
  Qed.
  Theorem wave_unstable k q v eps s t0 dt a b : unsheared shape W -> (k < List.length shape)%nat -> nth k shape O = (4 * q)%nat ->
    (forall js, in_range shape js -> wind_along W k js = v) -> eps <> 0 ->
    (forall js, in_range shape js -> field a js = field b js + eps * wave k js) ->
    match s with SRk4 => 2 * sqrt 2 < Rabs (dt * v / step_of lengths shape k) | _ => dt * v <> 0 end ->
    forall B, exists N0, forall N, (N0 <= N)%nat -> exists ta tb ra rb,
      forecast Req_EM_T Rminus (@onestep_fun RF (list nat) s) trend (times t0 dt N) a SNone = Ok ta /\
      forecast Req_EM_T Rminus (@onestep_fun RF (list nat) s) trend (times t0 dt N) b SNone = Ok tb /\
      dget Req_EM_T (t0 + INR N * dt) ta = Some ra /\ dget Req_EM_T (t0 + INR N * dt) tb = Some rb /\ B <= gap shape ra rb.
  Proof.
    intros U Hk Hq Hv He Hab Hs B. pose proof (steps_pos c lengths shape W enum ord g caches attr AC) as Hd. pose proof (Hd k Hk) as Ph.
    set (h := step_of lengths shape k) in *. set (m := v / h). set (z := @vscale RF (list nat) eps (cut shape (wave k))).
    pose proof (wave_mode lengths shape k q Hk Hq Hd (wind_along W) v Hv eps) as M. fold h m z in M.
    assert (Ez : @vadd RF (list nat) (view shape a) (@vscale RF (list nat) (-1) (view shape b)) = z).
    { apply functional_extensionality. intros js. unfold z, vadd, vscale, view, cut. cbn. destruct (inb shape js) eqn:I; [|ring].
      apply inb_iff in I. rewrite Hab by auto. ring. }
    assert (Pz : 0 < dot shape z z).
    { unfold z. rewrite (ip_scale _ (dot_inner shape)), (ip_sym _ (dot_inner shape)), (ip_scale _ (dot_inner shape)).
      pose proof (wave_energy k Hk). assert (0 < eps * eps) by nra. rewrite <- Rmult_assoc. apply Rmult_lt_0_compat; auto. }
    assert (N8 : (2 * sqrt 2) ^ 2 = 8) by (pose proof (sqrt_sqrt 2 ltac:(lra)); cbn; lra). pose proof (sqrt_pos 2) as S0.
    assert (Nd : dt <> 0). { intros ->. destruct s; try (apply Hs; ring). unfold Rdiv in Hs. rewrite !Rmult_0_l, Rabs_R0 in Hs. lra. }
    assert (Hm : dt * m = dt * v / h) by (unfold m, Rdiv; ring).
    destruct (blow_up (factor s ((dt * m) ^ 2)) (dot shape z z) B) as (N0 & HN); auto.
    { apply factor_large. rewrite Hm. destruct s.
      - assert (dt * v / h <> 0) by (apply Rmult_integral_contrapositive_currified; auto; apply Rinv_neq_0_compat; lra). nra.
      - assert (dt * v / h <> 0) by (apply Rmult_integral_contrapositive_currified; auto; apply Rinv_neq_0_compat; lra). nra.
      - rewrite <- pow2_abs. rewrite <- N8. cbn [pow]. nra. }
    exists N0. intros N HN'.
    destruct (forecast_power s t0 dt N a Nd) as (ta & ra & Ea & Ga & Va). destruct (forecast_power s t0 dt N b Nd) as (tb & rb & Eb & Gb & Vb).
    exists ta, tb, ra, rb. repeat (split; [assumption|]). rewrite gap_view, Va, Vb.
    rewrite <- iter_sub by (intros; apply exp_sub_linear, flow_linear). rewrite Ez.
    eapply Rle_trans; [apply (HN N HN')|]. right. symmetry. exact (proj2 (iter_energy s m dt (skew_model c lengths shape W enum ord g caches attr AC U) N z M)).
  Qed.
End Power.
