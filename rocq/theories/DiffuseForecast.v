(** Constant tensors and diagonal tensors. *)
From Coq Require Import List Arith ZArith Bool Reals String Lia Lra Psatz Permutation FunctionalExtensionality.
From Verif Require Import PyBase PyBaseFacts Scalars FieldFacts SymModel FDExprModel FDExprSpec FDReal GridModel GridSpec ForecastModel ForecastSpec ConsistSpec ConsistProofs ConsistMain
  SchemesModel SchemesSpec SchemesProofs LineModel LineSpec LineConv EnergySpec EnergyProofs AdvectModel AdvectSpec AdvectTrend AdvectGrid AdvectConv AdvectWave WindNorm WindSpec WindConv WindMain
  DiffuseModel DiffuseSpec DiffuseTrend DiffuseGrid DiffuseGauge DiffuseSym DiffuseConv DiffuseMain.
Import ListNotations.
Open Scope R_scope.

(** ** two measures *)
Definition rms (shape : list nat) (a : arr RF (list nat)) (y : R) : Prop := norm (dot shape) a <= sqrt (points shape) * y.
Definition sup (shape : list nat) (a : arr RF (list nat)) (y : R) : Prop := forall js, in_range shape js -> Rabs (a js) <= y.
Lemma rms_measures shape : measures shape (rms shape).
Proof.
  pose proof (dot_inner shape) as IP. pose proof (sqrt_pos (points shape)) as PS. split; [split|].
  - unfold rms. rewrite (norm_zero _ IP) by auto. lra.
  - intros a b x y Ha Hb. unfold rms in *. eapply Rle_trans; [apply (norm_add _ IP)|]. lra.
  - intros k a x Ha. unfold rms in *. rewrite (norm_scale _ IP). apply (Rmult_le_compat_l (Rabs k)) in Ha; [|apply Rabs_pos]. lra.
  - intros a x y Ha Hy. unfold rms in *. apply (Rmult_le_compat_l (sqrt (points shape))) in Hy; lra.
  - intros a e He H. apply norm_of_bound; auto.
Qed.
Lemma sup_measures shape : measures shape (sup shape).
Proof.
  split; [split|]; unfold sup.
  - intros. rewrite Rabs_R0. lra.
  - intros a b x y Ha Hb js Hj. specialize (Ha js Hj). specialize (Hb js Hj). unfold vadd. cbn [fadd RF F]. eapply Rle_trans; [apply Rabs_triang|]. lra.
  - intros k a x Ha js Hj. specialize (Ha js Hj). unfold vscale. cbn [fmul RF F]. rewrite Rabs_mult. apply Rmult_le_compat_l; auto. apply Rabs_pos.
  - intros a x y Ha Hy js Hj. specialize (Ha js Hj). lra.
  - auto.
Qed.

  Lemma flip n : (-1) ^ (S n) = - (-1) ^ n. Proof. cbn. ring. Qed.
  Lemma parity a b : Nat.even a = Nat.even b -> (-1) ^ a = (-1) ^ b.
  Proof.
    assert (P : forall a, (-1) ^ a = if Nat.even a then 1 else -1).
    { clear. intros a. induction a as [|a IH]; [reflexivity|]. rewrite flip, IH, Nat.even_succ, <- Nat.negb_even. destruct (Nat.even a); cbn; ring. }
    intros H. rewrite !P, H. reflexivity.
  Qed.
  Lemma even_mod a p : p <> O -> Nat.even (a mod (2 * p)) = Nat.even a.
  Proof.
    intros N. rewrite (Nat.div_mod a (2 * p)) at 2 by lia. rewrite Nat.even_add. rewrite <- Nat.mul_assoc, Nat.even_mul. cbn [Nat.even].
    destruct (Nat.even (a mod (2 * p))); reflexivity.
  Qed.

(** ** constant tensors *)
Section Uniform.
  Variables (lengths : list R) (shape : list nat) (K : kappa R).
  Hypothesis Ls : List.length shape = 2%nat.
  Hypothesis Hd : forall k, (k < List.length shape)%nat -> 0 < step_of lengths shape k.
  Hypothesis HK : dissipates K.
  Notation f := (spread lengths shape (coefs_of lengths shape (uniform K))).
  Notation M := (stiffness_of lengths shape K).
  Lemma uniform_constant a : f a = spread lengths shape (constant5 K) a.
  Proof.
    unfold spread. apply cut_eq. intros js H. unfold value5, coefs_of, constant5, uniform, kmap. cbn [c20 c11 c02 c10 c01 k11 k12 k22].
    rewrite !(slope_const lengths shape). ring.
  Qed.
  Lemma uniform_excess js : excess lengths shape (uniform K) js = 0.
  Proof.
    unfold excess, uniform, kmap. cbn [k11 k22].
    assert (S : forall k a, slope lengths shape k (slope lengths shape k (fun _ => a)) js = 0).
    { intros k a. replace (slope lengths shape k (fun _ => a)) with (fun _ : list nat => 0); [apply (slope_const lengths shape)|].
      apply functional_extensionality. intros i. symmetry. apply (slope_const lengths shape). }
    rewrite !S. unfold curve, Rdiv. ring.
  Qed.
  Lemma uniform_sym a b : dot shape a (f b) = dot shape (f a) b.
  Proof.
    rewrite (ip_sym _ (dot_inner shape) (f a) b), !uniform_constant, !(form_ok lengths shape Ls Hd K). rewrite (form_sym lengths shape Ls Hd K). reflexivity.
  Qed.
  Lemma uniform_down a : dot shape a (f a) <= 0.
  Proof. rewrite uniform_constant, (form_ok lengths shape Ls Hd K). pose proof (form_pos lengths shape Ls Hd K HK a). lra. Qed.
  Lemma uniform_bound a : - dot shape a (f a) <= M * dot shape a a.
  Proof. rewrite uniform_constant, (form_ok lengths shape Ls Hd K). rewrite Ropp_involutive. exact (form_bound lengths shape Ls Hd K HK a). Qed.
  Lemma M_pos : 0 <= M.
  Proof.
    destruct HK as (P1 & P2 & _). unfold stiffness_of. pose proof (Hd 0%nat ltac:(lia)) as H0. pose proof (Hd 1%nat ltac:(lia)) as H1.
    assert (0 <= k11 K / step_of lengths shape 0 ^ 2) by (apply Rmult_le_pos; auto; left; apply Rinv_0_lt_compat, pow_lt; auto).
    assert (0 <= k22 K / step_of lengths shape 1 ^ 2) by (apply Rmult_le_pos; auto; left; apply Rinv_0_lt_compat, pow_lt; auto). lra.
  Qed.
  Lemma uniform_step s (dt tau : R) a : 0 <= dt <= tau -> tau * M <= step_limit s ->
    norm (dot shape) (@exp_taylor RF (list nat) f dt (onestep_order s) a) <= norm (dot shape) a.
  Proof.
    intros Ht C. pose proof (dot_inner shape) as IP. pose proof (spread_linear lengths shape (coefs_of lengths shape (uniform K))) as LF. pose proof M_pos as PM.
    assert (C' : dt * M <= step_limit s) by (eapply Rle_trans; [apply Rmult_le_compat_r; [exact PM|apply Ht]|exact C]).
    destruct (Rle_dec (dt * M) 2) as [L2|N2].
    - set (G := fun (a : arr RF (list nat)) (y : R) => norm (dot shape) a <= y).
      assert (GG : gauge G).
      { split; unfold G.
        - rewrite (norm_zero _ IP) by auto. lra.
        - intros a' b' y z Ha Hb. eapply Rle_trans; [apply (norm_add _ IP)|]. lra.
        - intros k a' y Ha. rewrite (norm_scale _ IP). apply Rmult_le_compat_l; auto. apply Rabs_pos.
        - intros; lra. }
      apply (gauge_step f dt LF G GG) with (s := s); [|unfold G; lra].
      intros a' y Ha. unfold G in *. eapply Rle_trans; [|exact Ha].
      apply (explicit_norm (dot shape) f M IP LF uniform_sym uniform_down uniform_bound dt); auto; lra.
    - destruct s; cbn [step_limit] in C'; try lra. cbn [onestep_order].
      apply (rk4_norm (dot shape) f M IP LF uniform_sym uniform_down uniform_bound dt); auto; lra.
  Qed.
  Lemma uniform_steady s (dt tau : R) : 0 <= dt <= tau -> tau * M <= step_limit s -> steady (139 / 50) (rms shape) f dt s.
  Proof.
    intros Ht C. split.
    - intros a y Ha. unfold rms in *. eapply Rle_trans; [apply (uniform_step s dt tau); auto|exact Ha].
    - intros a y Ha. unfold rms in *. pose proof (dot_inner shape) as IP. pose proof M_pos as PM. rewrite (norm_scale _ IP), Rabs_pos_eq by lra.
      pose proof (trend_bound (dot shape) f M IP (spread_linear lengths shape (coefs_of lengths shape (uniform K))) uniform_sym uniform_down uniform_bound a PM) as T.
      apply (Rmult_le_compat_l dt) in T; [|lra]. eapply Rle_trans; [exact T|].
      assert (C' : dt * M <= 139 / 50).
      { apply Rle_trans with (tau * M); [apply Rmult_le_compat_r; lra|]. destruct s; cbn in C; lra. }
      rewrite <- Rmult_assoc. apply Rle_trans with (139 / 50 * norm (dot shape) a); [apply Rmult_le_compat_r; auto; apply norm_pos|]. lra.
  Qed.
  (** ** the alternating field *)
  Hypothesis Even : exists p q, shape = [(2 * p)%nat; (2 * q)%nat].
  Lemma alternating_next k js : (k < 2)%nat -> in_range shape js -> alternating (next shape k js) = - alternating js.
  Proof.
    intros Hk H. destruct Even as (p & q & Es). rewrite Es in *. inversion H as [|? i ? ? Hi H2]; subst. inversion H2 as [|? j ? ? Hj H3]; subst. inversion H3; subst.
    unfold alternating, next. rewrite <- flip. destruct k as [|[|k]]; [| |lia]; cbn [nth replace]; apply parity.
    - rewrite Nat.even_add, even_mod by lia. rewrite Nat.add_1_r. rewrite !Nat.even_succ, <- !Nat.negb_even, Nat.even_add. destruct (Nat.even i), (Nat.even j); reflexivity.
    - rewrite Nat.even_add, even_mod by lia. rewrite Nat.add_1_r. rewrite !Nat.even_succ, <- !Nat.negb_even, Nat.even_add. destruct (Nat.even i), (Nat.even j); reflexivity.
  Qed.
  Lemma alternating_prev k js : (k < 2)%nat -> in_range shape js -> alternating (prev shape k js) = - alternating js.
  Proof.
    intros Hk H. destruct Even as (p & q & Es). rewrite Es in *. inversion H as [|? i ? ? Hi H2]; subst. inversion H2 as [|? j ? ? Hj H3]; subst. inversion H3; subst.
    unfold alternating, prev. rewrite <- flip. destruct k as [|[|k]]; [| |lia]; cbn [nth replace]; apply parity.
    - rewrite Nat.even_add, even_mod by lia. replace (i + 2 * p - 1)%nat with (S (i + 2 * (p - 1)))%nat by lia. rewrite !Nat.even_succ, <- !Nat.negb_even, !Nat.even_add, Nat.even_mul. cbn [Nat.even]. destruct (Nat.even i), (Nat.even j); reflexivity.
    - rewrite Nat.even_add, even_mod by lia. replace (j + 2 * q - 1)%nat with (S (j + 2 * (q - 1)))%nat by lia. rewrite !Nat.even_succ, <- !Nat.negb_even, !Nat.even_add, Nat.even_mul. cbn [Nat.even]. destruct (Nat.even i), (Nat.even j); reflexivity.
  Qed.
  Lemma alternating_mode eps : f (@vscale RF (list nat) eps (cut shape alternating)) = @vscale RF (list nat) (- M)%R (@vscale RF (list nat) eps (cut shape alternating)).
  Proof.
    destruct (spread_linear lengths shape (coefs_of lengths shape (uniform K))) as [_ L2]. rewrite L2, uniform_constant.
    assert (E : spread lengths shape (constant5 K) (cut shape alternating) = @vscale RF (list nat) (- M)%R (cut shape alternating)).
    { apply functional_extensionality. intros js. destruct (inb shape js) eqn:I.
      - apply inb_iff in I. unfold spread, vscale. cbn [fmul RF F]. rewrite !cut_in by auto.
        rewrite (value5_ext lengths shape Ls _ _ alternating js) by (auto; intros; apply cut_in; auto).
        assert (S0 : forall k i, (k < 2)%nat -> in_range shape i -> slope lengths shape k alternating i = 0).
        { intros k i Hk Hi. unfold slope. rewrite alternating_next, alternating_prev by auto. unfold Rdiv. ring. }
        assert (S2 : forall k i, (k < 2)%nat -> in_range shape i -> curve lengths shape k alternating i = - (4 / step_of lengths shape k ^ 2 * alternating i)).
        { intros k i Hk Hi. unfold curve. rewrite alternating_next, alternating_prev by auto. unfold Rdiv. ring. }
        unfold value5, constant5. cbn [c20 c11 c02 c10 c01]. rewrite !S2 by (auto; lia).
        rewrite (slope_ext lengths shape 0 _ (fun _ => 0) js) by (auto; try lia; intros; apply S0; auto; lia). rewrite (slope_const lengths shape).
        unfold stiffness_of. unfold Rdiv. ring.
      - unfold spread, vscale, cut. rewrite I. cbn. ring. }
    rewrite E. apply functional_extensionality. intros js. unfold vscale. cbn [fmul RF F]. match goal with |- @eq _ ?a ?b => change (@eq R a b) end. ring.
  Qed.
  Definition ratio s (y : R) : R := match s with SEuler => 1 - y | SRk2 => 1 - y + y ^ 2 / 2 | SRk4 => 1 - y + y ^ 2 / 2 - y ^ 3 / 6 + y ^ 4 / 24 end.
  Lemma mode_step s (dt : R) z : f z = @vscale RF (list nat) (- M)%R z -> @exp_taylor RF (list nat) f dt (onestep_order s) z = @vscale RF (list nat) (ratio s (dt * M)) z.
  Proof.
    intros Hz. destruct (spread_linear lengths shape (coefs_of lengths shape (uniform K))) as [_ L2].
    assert (It : forall k, Nat.iter k f z = @vscale RF (list nat) ((- M) ^ k)%R z).
    { clear - Hz L2. intros k. induction k as [|k IH].
      - apply functional_extensionality. intros i. change (z i = ((- M) ^ 0 * z i)%R). rewrite pow_O, Rmult_1_l. reflexivity.
      - change (Nat.iter (S k) f z) with (f (Nat.iter k f z)). rewrite IH, L2, Hz. apply functional_extensionality. intros i. unfold vscale. cbn [fmul RF F pow].
        match goal with |- @eq _ ?a ?b => change (@eq R a b) end. ring. }
    apply functional_extensionality. intros i.
    destruct s; cbn [onestep_order exp_taylor]; rewrite !It, !coefficient; unfold vadd, vscale, ratio; cbn [fadd fmul RF F pow];
      change (fact 1) with 1%nat; change (fact 2) with 2%nat; change (fact 3) with 6%nat; change (fact 4) with 24%nat;
      replace (INR 1) with 1 by reflexivity; replace (INR 2) with 2 by (cbn; ring); replace (INR 6) with 6 by (cbn; ring); replace (INR 24) with 24 by (cbn; ring);
      match goal with |- @eq _ ?a ?b => change (@eq R a b) end; field.
  Qed.
  Lemma mode_power s (dt : R) z N : f z = @vscale RF (list nat) (- M)%R z ->
    dot shape (Nat.iter N (@exp_taylor RF (list nat) f dt (onestep_order s)) z) (Nat.iter N (@exp_taylor RF (list nat) f dt (onestep_order s)) z) = (ratio s (dt * M) ^ 2) ^ N * dot shape z z.
  Proof.
    intros Hz. destruct (spread_linear lengths shape (coefs_of lengths shape (uniform K))) as [_ L2]. set (E := @exp_taylor RF (list nat) f dt (onestep_order s)).
    assert (It : forall N, Nat.iter N E z = @vscale RF (list nat) (ratio s (dt * M) ^ N)%R z).
    { clear N. intros N. induction N as [|n IH].
      - apply functional_extensionality. intros i. change (z i = (ratio s (dt * M) ^ 0 * z i)%R). rewrite pow_O, Rmult_1_l. reflexivity.
      - change (Nat.iter (S n) E z) with (E (Nat.iter n E z)). rewrite IH. unfold E. rewrite mode_step.
        + apply functional_extensionality. intros i. unfold vscale. cbn [fmul RF F pow]. match goal with |- @eq _ ?a ?b => change (@eq R a b) end. ring.
        + rewrite L2, Hz. apply functional_extensionality. intros i. unfold vscale. cbn [fmul RF F]. match goal with |- @eq _ ?a ?b => change (@eq R a b) end. ring. }
    rewrite It. rewrite (ip_scale _ (dot_inner shape)), (ip_sym _ (dot_inner shape)), (ip_scale _ (dot_inner shape)).
    rewrite <- Rmult_assoc. f_equal. rewrite <- pow_mult, Nat.mul_comm, pow_mult. cbn [pow]. rewrite Rmult_1_r, <- Rpow_mult_distr. reflexivity.
  Qed.
  Lemma ratio_large s y : match s with SRk4 => 279 / 100 < y | _ => 2 < y end -> 1 < ratio s y ^ 2.
  Proof.
    intros H. destruct s; cbn [ratio].
    - nra.
    - assert (1 < 1 - y + y ^ 2 / 2) by nra. set (r := 1 - y + y ^ 2 / 2) in *. nra.
    - assert (X : 1 < 1 - y + y ^ 2 / 2 - y ^ 3 / 6 + y ^ 4 / 24).
      { assert (Y : 0 < -1 + y / 2 - y ^ 2 / 6 + y ^ 3 / 24).
        { set (e := y - 279 / 100). assert (0 < e) by (unfold e; lra). replace y with (279 / 100 + e) by (unfold e; ring).
          assert (0 < e ^ 3) by (apply pow_lt; auto). nra. }
        assert (0 < y * (-1 + y / 2 - y ^ 2 / 6 + y ^ 3 / 24)) by (apply Rmult_lt_0_compat; lra). lra. }
      set (r := 1 - y + y ^ 2 / 2 - y ^ 3 / 6 + y ^ 4 / 24) in *. nra.
  Qed.
End Uniform.

Section UniformModel.
  Variables (lengths : list R) (shape : list nat) (K : kappa R).
  Variables (enum : list sx -> list sx) (x : nat -> R) (ord : list datom -> list datom).
  Variables (rpow : R -> R -> R) (g : @grid RF) (caches : R -> list (string * nat) -> (list nat -> R) -> cache).
  Variable attr : string -> res (list nat -> R).
  Hypothesis DC : diffuse_class lengths shape (uniform K) enum ord g caches attr.
  Hypothesis HK : dissipates K.
  Notation trend := (generated_trend enum x ord rpow plane g caches attr diffusion_in_2D).
  Notation f := (spread lengths shape (coefs_of lengths shape (uniform K))).
  Lemma uniform_energy s tau w state sv : w <> [] -> sv <> SOther -> by_steps tau w -> tau * stiffness_of lengths shape K <= step_limit s ->
    exists traj, forecast Req_EM_T Rminus (@onestep_fun RF (list nat) s) trend w state sv = Ok traj /\
      forall t, In t w -> is_saved w sv t -> exists r, dget Req_EM_T t traj = Some r /\ energy shape r <= energy shape state.
  Proof.
    intros Hw Hs B C. pose proof (d_ls _ _ _ _ _ _ _ _ DC) as Ls. pose proof (d_hd _ _ _ _ _ _ _ _ DC) as Hd.
    destruct (model_keeps lengths shape (uniform K) enum x ord rpow g caches attr DC s (fun a => norm (dot shape) a <= norm (dot shape) (view shape state)) tau w state sv Hw Hs B) as (traj & E & H).
    - intros dt a Ht Ha. eapply Rle_trans; [|exact Ha]. apply (uniform_step lengths shape K Ls Hd HK s dt tau); auto.
    - lra.
    - exists traj. split; [exact E|]. intros t H1 H2. destruct (H t H1 H2) as (r & G & Hr). exists r. split; auto.
      rewrite !energy_view. apply sqrt_le_0 in Hr; auto; apply (ip_pos _ (dot_inner shape)).
  Qed.
  Lemma uniform_unstable s t0 dt eps a b : (exists p q, shape = [(2 * p)%nat; (2 * q)%nat]) -> eps <> 0 ->
    (forall js, in_range shape js -> field a js = field b js + eps * alternating js) ->
    match s with SRk4 => 279 / 100 < dt * stiffness_of lengths shape K | _ => 2 < dt * stiffness_of lengths shape K end ->
    forall B, exists N0, forall N, (N0 <= N)%nat -> exists ta tb ra rb,
      forecast Req_EM_T Rminus (@onestep_fun RF (list nat) s) trend (times t0 dt N) a SNone = Ok ta /\
      forecast Req_EM_T Rminus (@onestep_fun RF (list nat) s) trend (times t0 dt N) b SNone = Ok tb /\
      dget Req_EM_T (t0 + INR N * dt) ta = Some ra /\ dget Req_EM_T (t0 + INR N * dt) tb = Some rb /\ B <= gap shape ra rb.
  Proof.
    intros Ev He Hab Hs B. pose proof (d_ls _ _ _ _ _ _ _ _ DC) as Ls. pose proof (d_hd _ _ _ _ _ _ _ _ DC) as Hd. pose proof (d_hn _ _ _ _ _ _ _ _ DC) as Hn.
    set (z := @vscale RF (list nat) eps (cut shape alternating)).
    pose proof (alternating_mode lengths shape K Ls Hd Ev eps) as Mz. fold z in Mz.
    assert (Ez : @vadd RF (list nat) (view shape a) (@vscale RF (list nat) (-1) (view shape b)) = z).
    { apply functional_extensionality. intros js. unfold z, vadd, vscale, view, cut. cbn. destruct (inb shape js) eqn:I; [|ring].
      apply inb_iff in I. rewrite Hab by auto. ring. }
    assert (Pz : 0 < dot shape z z).
    { unfold z. rewrite (ip_scale _ (dot_inner shape)), (ip_sym _ (dot_inner shape)), (ip_scale _ (dot_inner shape)).
      assert (Ea : dot shape (cut shape alternating) (cut shape alternating) = points shape * 1).
      { rewrite <- gs_const. unfold dot. apply gs_ext. intros js Hj. rewrite !cut_in by auto. unfold alternating. rewrite <- Rpow_mult_distr. replace (-1 * -1) with 1 by ring. apply pow1. }
      rewrite Ea. pose proof (points_pos shape Hn). assert (0 < eps * eps) by nra. rewrite <- Rmult_assoc. apply Rmult_lt_0_compat; lra. }
    assert (Nd : dt <> 0) by (intros ->; destruct s; lra).
    destruct (blow_up (ratio s (dt * stiffness_of lengths shape K) ^ 2) (dot shape z z) B) as (N0 & HN); auto.
    { apply ratio_large; auto. }
    exists N0. intros N HN'.
    destruct (d_power lengths shape _ enum x ord rpow g caches attr DC s t0 dt N a Nd) as (ta & ra & Ea & Ga & Va).
    destruct (d_power lengths shape _ enum x ord rpow g caches attr DC s t0 dt N b Nd) as (tb & rb & Eb & Gb & Vb).
    exists ta, tb, ra, rb. repeat (split; [assumption|]). rewrite gap_view, Va, Vb.
    rewrite <- iter_sub by (intros; apply exp_sub_linear, spread_linear). rewrite Ez.
    eapply Rle_trans; [apply (HN N HN')|]. right. symmetry. apply (mode_power lengths shape K); auto.
  Qed.
End UniformModel.

(** ** convergence for constant tensors *)
Lemma evolution_with lengths K t0 t1 u : evolution 2 lengths (diffusion_with K) t0 t1 u ->
  evolution 2 lengths (op5 (mk_coefs (fun _ => k11 K) (fun _ => 2 * k12 K) (fun _ => k22 K) (fun _ => 0) (fun _ => 0))) t0 t1 u.
Proof.
  intros [H1 H2 H3 H4 H5]. split; auto. intros t p Ht. rewrite H3 by auto. unfold diffusion_with, op5. cbn [c20 c11 c02 c10 c01]. ring.
Qed.
Theorem uniform_forecast lengths K t0 t1 u s : List.length lengths = 2%nat -> dissipates K -> evolution 2 lengths (diffusion_with K) t0 t1 u ->
  exists C, forall shape enum x ord rpow (g : @grid RF) caches attr tau win state sv,
    diffuse_class lengths shape (uniform K) enum ord g caches attr ->
    runs t0 t1 tau win -> (forall js, in_range shape js -> field state js = u O t0 none (grid_point (g_dx g) js)) ->
    0 <= tau -> tau * stiffness_of lengths shape K <= step_limit s -> sv <> SOther ->
    exists traj, forecast Req_EM_T Rminus (@onestep_fun RF (list nat) s) (generated_trend enum x ord rpow plane g caches attr diffusion_in_2D) win state sv = Ok traj /\
      forall t, In t win -> is_saved win sv t -> exists r, dget Req_EM_T t traj = Some r /\
        rms_error (g_dx g) shape (u O t none) r <= C * (tau ^ onestep_order s + largest (g_dx g) ^ 2).
Proof.
  intros Ll HK EV. set (V := Rabs (k11 K) + 2 * Rabs (k12 K) + Rabs (k22 K)).
  pose proof (Rabs_pos (k11 K)) as P1. pose proof (Rabs_pos (k12 K)) as P2. pose proof (Rabs_pos (k22 K)) as P3.
  destruct (forecast5 lengths _ t0 t1 u V 0 (139 / 50) Ll (evolution_with lengths K t0 t1 u EV)) with (s := s) as (Q & PQ & HQ).
  - intros p. cbn [c20 c11 c02 c10 c01]. rewrite Rabs_R0, Rabs_mult, (Rabs_pos_eq 2) by lra. unfold V. repeat split; lra.
  - lra.
  - exists Q. intros shape enum x ord rpow g caches attr tau win state sv DC Rn Hs Ht C Hsv.
    pose proof (d_ls _ _ _ _ _ _ _ _ DC) as Ls. pose proof (d_hd _ _ _ _ _ _ _ _ DC) as Hd. pose proof (d_hn _ _ _ _ _ _ _ _ DC) as Hn.
    destruct (HQ shape (uniform K) enum x ord rpow g caches attr tau win state sv (rms shape) DC Rn Hs Ht Hsv) as (traj & E & H).
    + intros js Hj. unfold coefs_of, uniform, kmap. cbn [c20 c11 c02 c10 c01 k11 k12 k22]. rewrite !(slope_const lengths shape).
      rewrite !Rminus_diag_eq by ring. rewrite Rabs_R0. repeat split; lra.
    + apply rms_measures.
    + intros dt Hdt. apply (uniform_steady lengths shape K Ls Hd HK s dt tau); auto.
    + exists traj. split; [exact E|]. intros t H1 H2. destruct (H t H1 H2) as (r & G & Hr). exists r. split; auto.
      rewrite (d_dx _ _ _ _ _ _ _ _ DC) in *. rewrite rms_norm by auto. unfold rms in Hr.
      pose proof (points_pos shape Hn) as PP. assert (PS : 0 < sqrt (points shape)) by (apply sqrt_lt_R0; auto).
      apply (Rmult_le_reg_r (sqrt (points shape))); auto. unfold Rdiv. rewrite Rmult_assoc, Rinv_l, Rmult_1_r by lra. rewrite Rmult_comm. exact Hr.
Qed.

(** ** diagonal tensors *)
Section DiagonalGrid.
  Variables (lengths : list R) (shape : list nat) (K : kappa (list nat -> R)) (tau : R).
  Hypothesis Ls : List.length shape = 2%nat.
  Hypothesis Hd : forall k, (k < List.length shape)%nat -> 0 < step_of lengths shape k.
  Hypothesis RK : resolved shape K.
  Hypothesis CK : forall js, in_range shape js -> tau * (2 * k11 K js / step_of lengths shape 0 ^ 2 + 2 * k22 K js / step_of lengths shape 1 ^ 2) <= 1.
  Notation f := (spread lengths shape (coefs_of lengths shape K)).
  Lemma half_slope k (a b : list nat -> R) js : (k < 2)%nat -> Rabs (a (next shape k js) - a (prev shape k js)) <= 4 * b js ->
    step_of lengths shape k * Rabs (slope lengths shape k a js) <= 2 * b js.
  Proof.
    intros Hk H. pose proof (Hd k ltac:(lia)) as P. unfold slope, Rdiv. rewrite Rabs_mult, (Rabs_pos_eq (/ _)) by (left; apply Rinv_0_lt_compat; lra).
    replace (step_of lengths shape k * (Rabs (a (next shape k js) - a (prev shape k js)) * / (2 * step_of lengths shape k))) with (Rabs (a (next shape k js) - a (prev shape k js)) / 2) by (field; lra). lra.
  Qed.
  Lemma k_pos js : in_range shape js -> 0 <= k11 K js /\ 0 <= k22 K js.
  Proof.
    intros H. destruct (RK js H) as (_ & R1 & R2). pose proof (Rabs_pos (k11 K (next shape 0 js) - k11 K (prev shape 0 js))). pose proof (Rabs_pos (k22 K (next shape 1 js) - k22 K (prev shape 1 js))). lra.
  Qed.
  Lemma k12_slope k js : (k < 2)%nat -> in_range shape js -> slope lengths shape k (k12 K) js = 0.
  Proof.
    intros Hk H. rewrite (slope_ext lengths shape k _ (fun _ => 0) js) by (auto; try lia; intros i Hi; apply (RK i Hi)). apply (slope_const lengths shape).
  Qed.
  Lemma diagonal_explicit (dt lo hi : R) a : 0 <= dt <= tau -> (forall js, in_range shape js -> lo <= a js <= hi) ->
    forall js, in_range shape js -> lo <= explicit f dt a js <= hi.
  Proof.
    intros Ht Ha js Hj. change (explicit f dt a js) with (a js + dt * f a js)%R.
    apply (diagonal_step lengths shape Ls Hd (coefs_of lengths shape K)) with (lo := lo) (hi := hi); auto; try apply Ht.
    - intros i Hi. cbn [coefs_of c11]. rewrite (proj1 (RK i Hi)). ring.
    - intros i Hi. cbn [coefs_of c10 c20]. rewrite k12_slope, Rplus_0_r by (auto; lia). apply half_slope; [lia|]. apply (RK i Hi).
    - intros i Hi. cbn [coefs_of c01 c02]. rewrite k12_slope, Rplus_0_l by (auto; lia). apply half_slope; [lia|]. apply (RK i Hi).
    - intros i Hi. cbn [coefs_of c02 c20]. eapply Rle_trans; [|apply (CK i Hi)]. apply Rmult_le_compat_r; [|apply Ht].
      destruct (k_pos i Hi) as [P1 P2]. pose proof (Hd 0%nat ltac:(lia)) as H0. pose proof (Hd 1%nat ltac:(lia)) as H1.
      apply Rplus_le_le_0_compat; (apply Rmult_le_pos; [lra|left; apply Rinv_0_lt_compat, pow_lt; auto]).
  Qed.
  Lemma diagonal_bounds s (dt lo hi : R) a : 0 <= dt <= tau -> (forall js, in_range shape js -> lo <= a js <= hi) ->
    forall js, in_range shape js -> lo <= @exp_taylor RF (list nat) f dt (onestep_order s) a js <= hi.
  Proof.
    intros Ht Ha js Hj. pose proof (spread_linear lengths shape (coefs_of lengths shape K)) as LF.
    pose proof (diagonal_explicit dt lo hi a Ht Ha) as E1. pose proof (diagonal_explicit dt lo hi _ Ht E1) as E2.
    pose proof (diagonal_explicit dt lo hi _ Ht E2) as E3. pose proof (diagonal_explicit dt lo hi _ Ht E3) as E4.
    pose proof (Ha js Hj). specialize (E1 js Hj). specialize (E2 js Hj). specialize (E4 js Hj).
    destruct s; cbn [onestep_order].
    - rewrite (taylor_1 f dt). exact E1.
    - rewrite (taylor_2 f dt LF). unfold vadd, vscale. cbn [fadd fmul RF F]. lra.
    - rewrite (taylor_4 f dt LF). unfold vadd, vscale. cbn [fadd fmul RF F]. lra.
  Qed.
  Lemma diagonal_steady s (dt : R) : 0 <= dt <= tau -> steady 2 (sup shape) f dt s.
  Proof.
    intros Ht. pose proof (spread_linear lengths shape (coefs_of lengths shape K)) as LF. destruct (sup_measures shape) as [GG _].
    assert (HE : forall a y, sup shape a y -> sup shape (explicit f dt a) y).
    { intros a y Ha js Hj. apply Rabs_le. apply (diagonal_explicit dt (- y) y a Ht); auto. intros i Hi. apply abs_between. auto. }
    split; intros a y Ha; [apply (gauge_step f dt LF (sup shape) GG HE); auto|apply (gauge_trend f dt (sup shape) GG HE); auto].
  Qed.
End DiagonalGrid.

Section DiagonalModel.
  Variables (lengths : list R) (shape : list nat) (K : kappa (list nat -> R)).
  Variables (enum : list sx -> list sx) (x : nat -> R) (ord : list datom -> list datom).
  Variables (rpow : R -> R -> R) (g : @grid RF) (caches : R -> list (string * nat) -> (list nat -> R) -> cache).
  Variable attr : string -> res (list nat -> R).
  Hypothesis DC : diffuse_class lengths shape K enum ord g caches attr.
  Notation trend := (generated_trend enum x ord rpow plane g caches attr diffusion_in_2D).
  Lemma diagonal_forecast s tau w state sv lo hi : w <> [] -> sv <> SOther -> by_steps tau w -> resolved shape K ->
    (forall js, in_range shape js -> tau * (2 * k11 K js / step_of lengths shape 0 ^ 2 + 2 * k22 K js / step_of lengths shape 1 ^ 2) <= 1) ->
    (forall js, in_range shape js -> lo <= field state js <= hi) ->
    exists traj, forecast Req_EM_T Rminus (@onestep_fun RF (list nat) s) trend w state sv = Ok traj /\
      forall t, In t w -> is_saved w sv t -> exists r, dget Req_EM_T t traj = Some r /\ forall js, in_range shape js -> lo <= field r js <= hi.
  Proof.
    intros Hw Hs B RK C H0. pose proof (d_ls _ _ _ _ _ _ _ _ DC) as Ls. pose proof (d_hd _ _ _ _ _ _ _ _ DC) as Hd.
    destruct (model_keeps lengths shape K enum x ord rpow g caches attr DC s (fun a => forall js, in_range shape js -> lo <= a js <= hi) tau w state sv Hw Hs B) as (traj & E & H).
    - intros dt a Ht Ha. apply (diagonal_bounds lengths shape K tau Ls Hd RK C); auto.
    - intros js Hj. unfold view. rewrite cut_in by auto. auto.
    - exists traj. split; [exact E|]. intros t H1 H2. destruct (H t H1 H2) as (r & G & Hr). exists r. split; auto.
      intros js Hj. specialize (Hr js Hj). unfold view in Hr. rewrite cut_in in Hr by auto. exact Hr.
  Qed.
End DiagonalModel.

(** ** convergence for diagonal tensors *)
Definition coefs_at (K : kappa (multi -> point -> R)) : coefs (point -> R) :=
  mk_coefs (k11 K none) (fun p => 2 * k12 K none p) (k22 K none)
    (fun p => k11 K (inc 0 none) p + k12 K (inc 1 none) p) (fun p => k12 K (inc 0 none) p + k22 K (inc 1 none) p).
Lemma diffusion_op5 K : diffusion_of K = op5 (coefs_at K).
Proof. reflexivity. Qed.
Lemma bound_list (k : multi -> point -> R) (l : list multi) : (forall a, exists B, forall p, Rabs (k a p) <= B) -> exists B, 0 <= B /\ forall a p, In a l -> Rabs (k a p) <= B.
Proof.
  intros H. induction l as [|a l (B & PB & HB)]; [exists 0; split; [lra|intros ? ? []]|]. destruct (H a) as (C & HC). exists (Rmax B C). split; [apply Rle_trans with B; auto; apply Rmax_l|].
  intros b p [<-|Hb]; [apply Rle_trans with C; [auto|apply Rmax_r]|apply Rle_trans with B; [auto|apply Rmax_l]].
Qed.
Lemma bound_tensor lengths K : smooth_tensor lengths K -> exists B, 0 <= B /\ forall a p, In a (none :: needed) -> Rabs (k11 K a p) <= B /\ Rabs (k12 K a p) <= B /\ Rabs (k22 K a p) <= B.
Proof.
  intros ((_ & _ & H1) & (_ & _ & H2) & (_ & _ & H3)).
  destruct (bound_list _ (none :: needed) H1) as (B1 & P1 & HB1). destruct (bound_list _ (none :: needed) H2) as (B2 & P2 & HB2). destruct (bound_list _ (none :: needed) H3) as (B3 & P3 & HB3).
  exists (B1 + B2 + B3). split; [lra|]. intros a p Ha. specialize (HB1 a p Ha). specialize (HB2 a p Ha). specialize (HB3 a p Ha). repeat split; lra.
Qed.
Theorem diagonal_converges lengths K t0 t1 u s : List.length lengths = 2%nat -> smooth_tensor lengths K -> evolution 2 lengths (diffusion_of K) t0 t1 u ->
  exists C, forall shape enum x ord rpow (g : @grid RF) caches attr tau win state sv,
    diffuse_class lengths shape (tensor_arrays (g_dx g) K) enum ord g caches attr ->
    runs t0 t1 tau win -> (forall js, in_range shape js -> field state js = u O t0 none (grid_point (g_dx g) js)) ->
    0 <= tau -> resolved shape (tensor_arrays (g_dx g) K) ->
    (forall js, in_range shape js -> let p := grid_point (g_dx g) js in
      tau * (2 * k11 K none p / step_of lengths shape 0 ^ 2 + 2 * k22 K none p / step_of lengths shape 1 ^ 2) <= 1) -> sv <> SOther ->
    exists traj, forecast Req_EM_T Rminus (@onestep_fun RF (list nat) s) (generated_trend enum x ord rpow plane g caches attr diffusion_in_2D) win state sv = Ok traj /\
      forall t, In t win -> is_saved win sv t -> exists r, dget Req_EM_T t traj = Some r /\
        forall js, in_range shape js -> Rabs (field r js - u O t none (grid_point (g_dx g) js)) <= C * (tau ^ onestep_order s + largest (g_dx g) ^ 2).
Proof.
  intros Ll SK EV. rewrite diffusion_op5 in EV. destruct (bound_tensor lengths K SK) as (B & PB & HB).
  destruct (forecast5 lengths (coefs_at K) t0 t1 u (2 * B) (2 * B) 2 Ll EV) with (s := s) as (Q & PQ & HQ).
  - intros p. cbn [coefs_at c20 c11 c02 c10 c01].
    destruct (HB none p ltac:(left; auto)) as (A1 & A2 & A3). destruct (HB (inc 0 none) p ltac:(right; left; auto)) as (A4 & A5 & _). destruct (HB (inc 1 none) p ltac:(right; right; left; auto)) as (_ & A6 & A7).
    rewrite Rabs_mult, (Rabs_pos_eq 2) by lra. repeat split; try lra; eapply Rle_trans; try apply Rabs_triang; lra.
  - lra.
  - exists Q. intros shape enum x ord rpow g caches attr tau win state sv DC Rn Hs Ht RK CK Hsv.
    pose proof (d_ls _ _ _ _ _ _ _ _ DC) as Ls. pose proof (d_hd _ _ _ _ _ _ _ _ DC) as Hd. pose proof (d_hn _ _ _ _ _ _ _ _ DC) as Hn.
    pose proof (proj2 (df_sides _ _ _ _ _ _ _ _ DC)) as Hp. pose proof (d_dx _ _ _ _ _ _ _ _ DC) as Edx.
    destruct (HQ shape _ enum x ord rpow g caches attr tau win state sv (sup shape) DC Rn Hs Ht Hsv) as (traj & E & H).
    + rewrite Edx. set (h := largest (spacings lengths shape)). intros js Hj. cbn [coefs_at coefs_of tensor_arrays kmap c20 c11 c02 c10 c01 k11 k12 k22].
      assert (Hh : forall k, (k < 2)%nat -> dxf lengths shape k <= h) by (intros k Hk; apply (ConsistMain.spacing_bounds plane lengths Ll Hp shape); auto).
      set (p := grid_point (spacings lengths shape) js). destruct SK as ((D1 & Q1 & _) & (D2 & Q2 & _) & (D3 & Q3 & _)).
      assert (Ph : 0 <= 2 * B * h ^ 2) by (apply Rmult_le_pos; [lra|apply pow2_ge_0]).
      assert (F : forall k (W : multi -> point -> R), (k < 2)%nat -> derivatives_of 2 W -> periodic lengths (W none) -> (forall a q, In a needed -> Rabs (W a q) <= B) ->
        Rabs (slope lengths shape k (sample (spacings lengths shape) (W none)) js - W (inc k none) p) <= B * h ^ 2).
      { intros k W Hk DW PW HW. rewrite (slope_of lengths shape Ll Ls Hn Hd k (W none) js) by auto. apply (first_error lengths shape h Ll Ls Hd Hh W B DW HW); auto. }
      pose proof (F 0%nat (k11 K) ltac:(lia) D1 Q1 ltac:(intros a q Ha; apply (HB a q (or_intror Ha)))) as F1. pose proof (F 1%nat (k12 K) ltac:(lia) D2 Q2 ltac:(intros a q Ha; apply (HB a q (or_intror Ha)))) as F2.
      pose proof (F 0%nat (k12 K) ltac:(lia) D2 Q2 ltac:(intros a q Ha; apply (HB a q (or_intror Ha)))) as F3. pose proof (F 1%nat (k22 K) ltac:(lia) D3 Q3 ltac:(intros a q Ha; apply (HB a q (or_intror Ha)))) as F4.
      change (sample (spacings lengths shape) (k11 K none) js) with (k11 K none p). change (sample (spacings lengths shape) (k12 K none) js) with (k12 K none p). change (sample (spacings lengths shape) (k22 K none) js) with (k22 K none p).
      assert (S : forall a b c d, Rabs (a - c) <= B * h ^ 2 -> Rabs (b - d) <= B * h ^ 2 -> Rabs (a + b - (c + d)) <= 2 * B * h ^ 2).
      { intros a b c d Ha Hb. replace (a + b - (c + d)) with ((a - c) + (b - d)) by ring. eapply Rle_trans; [apply Rabs_triang|]. lra. }
      split; [rewrite Rminus_diag_eq, Rabs_R0 by reflexivity; exact Ph|]. split; [rewrite Rminus_diag_eq, Rabs_R0 by reflexivity; exact Ph|]. split; [rewrite Rminus_diag_eq, Rabs_R0 by reflexivity; exact Ph|].
      split; apply S; auto.
    + apply sup_measures.
    + intros dt Hdt. apply (diagonal_steady lengths shape _ tau Ls Hd RK); auto.
    + exists traj. split; [exact E|]. intros t H1 H2. destruct (H t H1 H2) as (r & G & Hr). exists r. split; auto.
      intros js Hj. specialize (Hr js Hj).
      replace (field r js - u O t none (grid_point (g_dx g) js)) with (vsub (view shape r) (cut shape (sample (g_dx g) (u O t none))) js); [exact Hr|].
      unfold vsub, vadd, vscale. cbn [fadd fmul RF F]. unfold view. rewrite !cut_in by auto. unfold sample. ring.
Qed.
