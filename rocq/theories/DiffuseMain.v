(** Forecasts of the model generated from diffusion_in_2D. *)
From Coq Require Import List Arith ZArith Bool Reals String Lia Lra Psatz Permutation FunctionalExtensionality.
From Verif Require Import PyBase PyBaseFacts Scalars FieldFacts SymModel FDExprModel FDExprSpec FDReal GridModel GridSpec ForecastModel ForecastSpec ConsistSpec ConsistMain
  SchemesModel SchemesSpec SchemesProofs SchemesProps LineModel LineSpec LineConv EnergySpec EnergyProofs AdvectModel AdvectSpec AdvectTrend AdvectGrid AdvectConv WindNorm WindSpec WindConv WindMain
  DiffuseModel DiffuseSpec DiffuseTrend DiffuseGrid DiffuseGauge DiffuseSym DiffuseConv.
Import ListNotations.
Open Scope R_scope.

Definition coefs_of (lengths : list R) (shape : list nat) (K : kappa (list nat -> R)) : coefs (list nat -> R) :=
  mk_coefs (k11 K) (fun js => 2 * k12 K js) (k22 K)
    (fun js => slope lengths shape 0 (k11 K) js + slope lengths shape 1 (k12 K) js) (fun js => slope lengths shape 0 (k12 K) js + slope lengths shape 1 (k22 K) js).
Lemma diffused_value lengths shape K a js : diffused lengths shape K a js = value5 lengths shape (coefs_of lengths shape K) a js.
Proof. reflexivity. Qed.

Section Model.
  Variables (lengths : list R) (shape : list nat) (K : kappa (list nat -> R)).
  Variables (enum : list sx -> list sx) (x : nat -> R) (ord : list datom -> list datom).
  Variables (rpow : R -> R -> R) (g : @grid RF) (caches : R -> list (string * nat) -> (list nat -> R) -> cache).
  Variable attr : string -> res (list nat -> R).
  Hypothesis DC : diffuse_class lengths shape K enum ord g caches attr.
  Notation trend := (generated_trend enum x ord rpow plane g caches attr diffusion_in_2D).
  Notation f := (spread lengths shape (coefs_of lengths shape K)).
  Lemma d_ll : List.length lengths = 2%nat. Proof. exact (proj1 (df_sides _ _ _ _ _ _ _ _ DC)). Qed.
  Lemma d_ls : List.length shape = 2%nat. Proof. exact (proj1 (d_shape lengths shape K enum ord g caches attr DC)). Qed.
  Lemma d_hn : forall m, In m shape -> m <> O. Proof. exact (proj2 (d_shape lengths shape K enum ord g caches attr DC)). Qed.
  Lemma d_hd : forall k, (k < List.length shape)%nat -> 0 < step_of lengths shape k.
  Proof. exact (d_step_pos lengths shape K enum ord g caches attr DC). Qed.
  Lemma d_trend_view (t : R) state : @pure RF (list nat) (fun _ => f) t (view shape state) = (v <- trend t state ;; Ok (view shape v)).
  Proof.
    destruct (diffusion_trend lengths shape K enum x ord rpow g caches attr DC t state) as (r & E & H).
    rewrite E. cbn [bind]. unfold pure. f_equal. unfold spread. unfold view at 2. apply cut_eq. intros js Hj.
    unfold field at 1. rewrite H by auto. rewrite diffused_value. apply value5_ext; auto; [apply d_ls|]. intros; apply cut_in; auto.
  Qed.
  Lemma d_step_view s (t dt : R) state : exists r, @onestep_fun RF (list nat) s trend t state dt = Ok r /\
    view shape r = @exp_taylor RF (list nat) f dt (onestep_order s) (view shape state).
  Proof.
    pose proof (C13_step_intertwines RF s (view shape) trend (@pure RF (list nat) (fun _ => f)) (view_linear shape) d_trend_view t state dt) as X.
    pose proof (step_linear_exp RF s f t (view shape state) dt (spread_linear lengths shape (coefs_of lengths shape K))) as Y.
    change (@pure RF (list nat) (fun _ v => f v)) with (@pure RF (list nat) (fun _ => f)) in Y. cbn [F RF] in X, Y.
    destruct (@onestep_fun RF (list nat) s trend t state dt) as [r|e]; cbn [bind] in X; [|congruence].
    exists r. split; auto. apply Ok_inj. transitivity (@onestep_fun RF (list nat) s (@pure RF (list nat) (fun _ => f)) t (view shape state) dt); [symmetry; exact X|exact Y].
  Qed.
  (** the budget of the sum *)
  Lemma curve_sym k (a b : list nat -> R) : (k < List.length shape)%nat -> GS shape (fun js => b js * curve lengths shape k a js) = GS shape (fun js => curve lengths shape k b js * a js).
  Proof.
    intros Hk. rewrite (curve_parts lengths shape) by (auto using d_ls, d_hd).
    rewrite (gs_ext shape (fun js => curve lengths shape k b js * a js) (fun js => a js * curve lengths shape k b js)) by (intros; ring).
    rewrite (curve_parts lengths shape) by (auto using d_ls, d_hd). f_equal. apply gs_ext. intros; ring.
  Qed.
  Lemma slope_by k (a b : list nat -> R) : (k < List.length shape)%nat -> GS shape (fun js => b js * slope lengths shape k a js) = - GS shape (fun js => slope lengths shape k b js * a js).
  Proof. intros Hk. apply (slope_parts lengths shape d_hd). auto. Qed.
  Lemma spread_budget a : GS shape (f a) = GS shape (fun js => excess lengths shape K js * a js).
  Proof.
    pose proof d_ls as Ls.
    transitivity (GS shape (fun js => ((k11 K js * curve lengths shape 0 a js + slope lengths shape 0 (k11 K) js * slope lengths shape 0 a js)
      + (k22 K js * curve lengths shape 1 a js + slope lengths shape 1 (k22 K) js * slope lengths shape 1 a js))
      + ((2 * (k12 K js * slope lengths shape 0 (slope lengths shape 1 a) js)) + (slope lengths shape 1 (k12 K) js * slope lengths shape 0 a js + slope lengths shape 0 (k12 K) js * slope lengths shape 1 a js)))).
    { apply gs_ext. intros js H. unfold spread. rewrite cut_in by auto. unfold value5, coefs_of. cbn [c20 c11 c02 c10 c01]. ring. }
    rewrite !gs_add, gs_scale. rewrite !curve_sym, !slope_by by lia.
    assert (E2 : GS shape (fun js => slope lengths shape 0 (slope lengths shape 1 (k12 K)) js * a js) = GS shape (fun js => slope lengths shape 1 (slope lengths shape 0 (k12 K)) js * a js)).
    { apply gs_ext. intros js H. rewrite (slope_comm lengths shape Ls d_hd) by auto. reflexivity. }
    assert (E3 : GS shape (fun js => excess lengths shape K js * a js) =
      (GS shape (fun js => curve lengths shape 0 (k11 K) js * a js) + (-1) * GS shape (fun js => slope lengths shape 0 (slope lengths shape 0 (k11 K)) js * a js))
      + (GS shape (fun js => curve lengths shape 1 (k22 K) js * a js) + (-1) * GS shape (fun js => slope lengths shape 1 (slope lengths shape 1 (k22 K)) js * a js))).
    { rewrite <- !gs_scale, <- !gs_add. apply gs_ext. intros js _. unfold excess. ring. }
    lra.
  Qed.
  Lemma model_budget (t : R) state r : trend t state = Ok r -> mass shape r = GS shape (fun js => excess lengths shape K js * field state js).
  Proof.
    intros E. pose proof (d_trend_view t state) as X. rewrite E in X. cbn [bind] in X. unfold pure in X. apply Ok_inj in X.
    rewrite mass_view, <- X, spread_budget. apply gs_ext. intros js H. unfold view. rewrite cut_in by auto. reflexivity.
  Qed.
  Lemma model_conserves s w state sv : w <> [] -> sv <> SOther -> (forall js, in_range shape js -> excess lengths shape K js = 0) ->
    exists traj, forecast Req_EM_T Rminus (@onestep_fun RF (list nat) s) trend w state sv = Ok traj /\
      forall t, In t w -> is_saved w sv t -> exists r, dget Req_EM_T t traj = Some r /\ mass shape r = mass shape state.
  Proof.
    intros Hw Hs Dv. destruct w as [|t0 w]; [congruence|].
    apply (forecast_keeps (@onestep_fun RF (list nat) s) trend (fun _ r => mass shape r = mass shape state) (t0 :: w) state sv t0); auto.
    intros k t t' r H H' Hr. destruct (d_step_view s t (t' - t) r) as (r' & Er & Ev).
    exists r'. split; [exact Er|]. rewrite mass_view, Ev, <- Hr, mass_view.
    apply (exp_invariant (GS shape)); intros.
    - unfold vadd. apply gs_add.
    - unfold vscale. apply gs_scale.
    - rewrite spread_budget. rewrite <- (gs_zero shape). apply gs_ext. intros js Hj. rewrite Dv by auto. ring.
  Qed.
  (** what holds of the first field and is kept by the steps holds of the forecasts *)
  Lemma model_keeps s (P : (list nat -> R) -> Prop) tau w state sv : w <> [] -> sv <> SOther -> by_steps tau w ->
    (forall dt a, 0 <= dt <= tau -> P a -> P (@exp_taylor RF (list nat) f dt (onestep_order s) a)) -> P (view shape state) ->
    exists traj, forecast Req_EM_T Rminus (@onestep_fun RF (list nat) s) trend w state sv = Ok traj /\
      forall t, In t w -> is_saved w sv t -> exists r, dget Req_EM_T t traj = Some r /\ P (view shape r).
  Proof.
    intros Hw Hs B HP H0. destruct w as [|t0 w]; [congruence|].
    apply (forecast_keeps (@onestep_fun RF (list nat) s) trend (fun _ r => P (view shape r)) (t0 :: w) state sv t0); auto.
    intros k t t' r H H' Hr. destruct (d_step_view s t (t' - t) r) as (r' & Er & Ev). destruct (B k t t' H H') as [B1 B2].
    exists r'. split; [exact Er|]. rewrite Ev. apply HP; auto. lra.
  Qed.
  Lemma d_power s t0 dt N state : dt <> 0 ->
    exists traj r, forecast Req_EM_T Rminus (@onestep_fun RF (list nat) s) trend (times t0 dt N) state SNone = Ok traj /\
      dget Req_EM_T (t0 + INR N * dt) traj = Some r /\ view shape r = Nat.iter N (@exp_taylor RF (list nat) f dt (onestep_order s)) (view shape state).
  Proof.
    intros Hd.
    destruct (forecast_keeps (@onestep_fun RF (list nat) s) trend
      (fun t r => exists k, t = t0 + INR k * dt /\ view shape r = Nat.iter k (@exp_taylor RF (list nat) f dt (onestep_order s)) (view shape state))
      (times t0 dt N) state SNone t0) as (traj & Et & H).
    - discriminate.
    - unfold times. cbn. f_equal. ring.
    - exists O. split; [cbn; ring|]. reflexivity.
    - intros i t t' r Hi Hi' (k & Ek & Hr). pose proof (times_step _ _ _ _ _ _ Hi Hi') as Ed.
      destruct (d_step_view s t (t' - t)%R r) as (r' & Er & Ev).
      exists r'. split; [exact Er|]. exists (S k). split; [rewrite S_INR; lra|]. rewrite Ev, Ed, Hr. reflexivity.
    - destruct (H _ (times_last t0 dt N) (times_last t0 dt N)) as (r & G & k & Ek & Hr).
      exists traj, r. split; [exact Et|]. split; [exact G|].
      assert (k = N) as ->. { apply INR_eq. apply (Rmult_eq_reg_r dt); lra. } exact Hr.
  Qed.
End Model.

(** ** convergence *)
Lemma largest_spacings : forall lengths shape, (forall L, In L lengths -> 0 < L) -> (forall m, In m shape -> m <> O) ->
  largest (spacings lengths shape) <= largest lengths.
Proof.
  induction lengths as [|L lengths IH]; intros shape HL Hn; [apply Rle_refl|]. destruct shape as [|m shape].
  - cbn. eapply Rle_trans; [|apply Rmax_r]. specialize (IH [] (fun L H => HL L (or_intror H)) ltac:(intros ? [])). unfold spacings in IH. rewrite combine_nil in IH. exact IH.
  - unfold spacings. cbn [combine map fst snd largest fold_right]. fold (spacings lengths shape). change (Rmax (L / INR m) (largest (spacings lengths shape)) <= Rmax L (largest lengths)).
    assert (P : 0 < L) by (apply HL; left; auto). assert (Pm : 1 <= INR m) by (apply (le_INR 1); specialize (Hn m (or_introl eq_refl)); lia).
    apply Rmax_lub.
    + eapply Rle_trans; [|apply Rmax_l]. apply (Rmult_le_reg_r (INR m)); [lra|]. unfold Rdiv. rewrite Rmult_assoc, Rinv_l by lra. apply Rmult_le_compat_l; lra.
    + eapply Rle_trans; [|apply Rmax_r]. apply IH; intros; [apply HL|apply Hn]; right; auto.
Qed.
Section Converge.
  Variables (lengths : list R) (C : coefs (point -> R)) (t0 t1 : R) (u : nat -> R -> multi -> point -> R) (V kz kap : R).
  Hypothesis Ll : List.length lengths = 2%nat.
  Hypothesis EV : evolution 2 lengths (op5 C) t0 t1 u.
  Hypothesis CV : forall p, Rabs (c20 C p) <= V /\ Rabs (c11 C p) <= V /\ Rabs (c02 C p) <= V /\ Rabs (c10 C p) <= V /\ Rabs (c01 C p) <= V.
  Hypothesis Pkz : 0 <= kz.
  Lemma forecast5 s : exists Q, 0 <= Q /\ forall shape K enum x ord rpow (g : @grid RF) caches attr tau win state sv G,
    diffuse_class lengths shape K enum ord g caches attr ->
    runs t0 t1 tau win -> (forall js, in_range shape js -> field state js = u O t0 none (grid_point (g_dx g) js)) -> 0 <= tau -> sv <> SOther ->
    close lengths C kz shape (largest (g_dx g)) (coefs_of lengths shape K) -> measures shape G ->
    (forall dt, 0 <= dt <= tau -> steady kap G (spread lengths shape (coefs_of lengths shape K)) dt s) ->
    exists traj, forecast Req_EM_T Rminus (@onestep_fun RF (list nat) s) (generated_trend enum x ord rpow plane g caches attr diffusion_in_2D) win state sv = Ok traj /\
      forall t, In t win -> is_saved win sv t -> exists r, dget Req_EM_T t traj = Some r /\
        G (vsub (view shape r) (cut shape (sample (g_dx g) (u O t none)))) (Q * (tau ^ onestep_order s + largest (g_dx g) ^ 2)).
  Proof.
    destruct (error5 lengths C t0 t1 u V kz (largest lengths) kap Ll EV CV Pkz s) as (Q & PQ & HQ). set (o := onestep_order s) in *.
    exists (Rabs (t1 - t0) * Q). split; [apply Rmult_le_pos; auto; apply Rabs_pos|].
    intros shape K enum x ord rpow g caches attr tau win state sv G DC (W0 & W1 & W2) Hs Pt Hsv CZ MG ST.
    assert (T01 : t0 <= t1) by (apply W2; eapply nth_error_In; eauto).
    pose proof (d_ls lengths shape K enum ord g caches attr DC) as Ls. pose proof (d_hn lengths shape K enum ord g caches attr DC) as Hn.
    pose proof (d_hd lengths shape K enum ord g caches attr DC) as Hd. pose proof (proj2 (df_sides _ _ _ _ _ _ _ _ DC)) as Hp.
    rewrite (d_dx lengths shape K enum ord g caches attr DC) in *. set (h := largest (spacings lengths shape)) in *.
    assert (Hh : forall k, (k < 2)%nat -> dxf lengths shape k <= h) by (intros k Hk; apply (ConsistMain.spacing_bounds plane lengths Ll Hp shape); auto).
    assert (Hm : h <= largest lengths) by (apply largest_spacings; auto).
    set (ex := fun t => cut shape (sample (spacings lengths shape) (u O t none))).
    destruct MG as [GG GB]. set (W := Q * (tau ^ o + h ^ 2)).
    assert (PW : 0 <= W) by (unfold W; apply Rmult_le_pos; auto; assert (0 <= tau ^ o) by (apply pow_le; auto); assert (0 <= h ^ 2) by apply pow2_ge_0; lra).
    destruct (forecast_keeps (@onestep_fun RF (list nat) s) (generated_trend enum x ord rpow plane g caches attr diffusion_in_2D)
      (fun t r => t0 <= t <= t1 /\ G (vsub (view shape r) (ex t)) ((t - t0) * W)) win state sv t0 Hsv W0) as (traj & E & H).
    - split; [lra|]. apply GB; [lra|]. intros js Hj.
      assert (Z : vsub (view shape state) (ex t0) js = 0).
      { unfold vsub, vadd, vscale. cbn [fadd fmul RF F]. unfold view, ex. rewrite !cut_in by auto. rewrite Hs by auto. unfold sample. cbn. ring. }
      rewrite Z, Rabs_R0. lra.
    - intros k t t' r Hk1 Hk2 ([T1 T2] & HE).
      destruct (W1 k t t' Hk1 Hk2) as [S1 S2]. pose proof (W2 t' (nth_error_In _ _ Hk2)) as S3.
      destruct (d_step_view lengths shape K enum x ord rpow g caches attr DC s t (t' - t) r) as (r' & Er & Ev).
      exists r'. split; [exact Er|]. split; [lra|]. rewrite Ev.
      pose proof (HQ shape h (coefs_of lengths shape K) G t (t' - t) (view shape r) ((t - t0) * W) Ls Hn Hd Hh Hm CZ (conj GG GB) (ST (t' - t) ltac:(lra)) T1 ltac:(lra) ltac:(lra) HE) as X.
      replace (t + (t' - t)) with t' in X by ring. fold (ex t') in X. apply (g_le _ GG _ _ _ X).
      replace ((t' - t0) * W) with ((t - t0) * W + (t' - t) * W) by ring. apply Rplus_le_compat_l. apply Rmult_le_compat_l; [lra|]. unfold W.
      apply Rmult_le_compat_l; auto. apply Rplus_le_compat_r. apply pow_incr. lra.
    - exists traj. split; [exact E|]. intros t Ht1 Ht2. destruct (H t Ht1 Ht2) as (r & Gt & [T1 T2] & HE).
      exists r. split; [exact Gt|]. apply (g_le _ GG _ _ _ HE). rewrite Rabs_pos_eq by lra. rewrite Rmult_assoc. fold W. apply Rmult_le_compat_r; lra.
  Qed.
End Converge.
