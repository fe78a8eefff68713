(** Convergence of each scheme, sharpness, and an instance. *)
From Coq Require Import List Arith Reals Lra Lia FunctionalExtensionality.
From Verif Require Import PyBase Scalars SchemesModel SchemesSpec ForecastModel FDReal OrderSpec OrderProofs OrderLocal OrderGlobal.
Import ListNotations.
Open Scope R_scope.

Lemma smooth_mono {I} n m a b (y : R -> I -> R) : (m <= n)%nat -> @smooth I n a b y -> @smooth I m a b y.
Proof.
  intros H (d & M & D0 & DD & DM). exists d, M. split; [exact D0|]. split.
  - intros k s i Hk Hs. apply DD; [lia|exact Hs].
  - intros k s Hk Hs. apply DM; [lia|exact Hs].
Qed.

Section Conv.
  Context {I : Type}.
  Variables (f : R -> (I -> R) -> I -> R) (a b : R) (y : R -> I -> R).
  Lemma euler_converges : @smooth I 2 a b y -> @solves I f a b y -> @lipschitz_near I f a b y -> @forecast_order I SEuler f a b y 1.
  Proof.
    intros S E L. apply convergence; [lia|apply (smooth_mono 2); [lia|exact S]|exact E|exact L|apply euler_order; assumption].
  Qed.
  Lemma rk2_converges : @smooth I 3 a b y -> @solves I f a b y -> @lipschitz_near I f a b y -> @forecast_order I SRk2 f a b y 2.
  Proof.
    intros S E L. apply convergence; [lia|apply (smooth_mono 3); [lia|exact S]|exact E|exact L|apply rk2_order; assumption].
  Qed.
  Lemma rk4_converges : @smooth I 5 a b y -> @solves I f a b y -> @lipschitz_near I f a b y -> @differentiable_near I f a b y ->
    @forecast_order I SRk4 f a b y 4.
  Proof.
    intros S E L D. apply convergence; [lia|apply (smooth_mono 5); [lia|exact S]|exact E|exact L|apply rk4_order; assumption].
  Qed.
End Conv.

(** ** sharpness: du/dt = u *)
Definition expo : R -> unit -> R := fun t _ => exp t.
Definition grow : R -> (unit -> R) -> unit -> R := fun _ u => u.

Lemma tay_nonneg n h : 0 <= h -> 0 <= tay n (fun _ _ => 1) 0 h.
Proof.
  intros Hh. induction n as [|n IH]; cbn [tay]; [lra|].
  assert (0 <= 1 / INR (fact n) * h ^ n).
  { apply Rmult_le_pos; [|apply pow_le; exact Hh]. apply Rlt_le, Rdiv_lt_0_compat; [lra|apply INR_fact_lt_0]. }
  lra.
Qed.
Lemma exp_taylor_le n : forall h, 0 <= h -> tay n (fun _ _ => 1) 0 h <= exp h.
Proof.
  induction n as [|n IH]; intros h Hh.
  { simpl. apply Rlt_le, exp_pos. }
  pose proof (compare_growth (fun s => tay (S n) (fun _ _ => 1) 0 s - 1) (fun s => tay n (fun _ _ => 1) 0 s)
                (fun s => exp s - 1) (fun s => exp s) h Hh) as C.
  assert (Q : Rabs (tay (S n) (fun _ _ => 1) 0 h - 1) <= exp h - 1).
  { apply C.
    - rewrite tay_0. ring.
    - rewrite exp_0. ring.
    - intros s Hs. eapply dl_eq; [|apply (derivable_pt_lim_minus (tay (S n) (fun _ _ => 1) 0) (fun _ => 1));
        [apply (tay_derive n (fun _ _ => 1) 0 s)|apply derivable_pt_lim_const]]. ring.
    - intros s Hs. eapply dl_eq; [|apply (derivable_pt_lim_minus exp (fun _ => 1)); [apply derivable_pt_lim_exp|apply derivable_pt_lim_const]]. ring.
    - intros s Hs. rewrite Rabs_right by (apply Rle_ge, tay_nonneg; lra). apply IH. lra. }
  pose proof (Rle_abs (tay (S n) (fun _ _ => 1) 0 h - 1)). lra.
Qed.
Lemma exp_smooth n : @smooth unit n (-1) 1 expo.
Proof.
  exists (fun _ => expo), (exp 1). split; [reflexivity|]. split.
  - intros k s i _ _. apply derivable_pt_lim_exp.
  - intros k s _ Hs i. unfold expo. rewrite Rabs_right by (apply Rle_ge, Rlt_le, exp_pos). apply Rlt_le, exp_increasing. lra.
Qed.
Lemma exp_solves : @solves unit grow (-1) 1 expo.
Proof. intros s i _. apply derivable_pt_lim_exp. Qed.
Lemma grow_lipschitz : @lipschitz_near unit grow (-1) 1 expo.
Proof. exists 1, 1. split; [lra|]. intros s v w rho _ _ _ H. rewrite Rmult_1_l. exact H. Qed.
Lemma grow_differentiable : @differentiable_near unit grow (-1) 1 expo.
Proof.
  exists (fun _ e => e), 1, 1. split; [lra|]. split; [intros s; split; reflexivity|]. split.
  - intros s e rho _ H. rewrite Rmult_1_l. exact H.
  - split.
    + intros s s' e rho _ _ H i. change (Rabs (e i - e i) <= 1 * Rabs (s - s') * rho). rewrite Rminus_diag_eq by reflexivity. rewrite Rabs_R0.
      rewrite Rmult_1_l. apply Rmult_le_pos; [apply Rabs_pos|]. eapply Rle_trans; [apply Rabs_pos|apply (H i)].
    + intros s e rho _ _ H i. change (Rabs (expo s i + e i - expo s i - e i) <= 1 * (rho * rho)).
      replace (expo s i + e i - expo s i - e i) with 0.
      * rewrite Rabs_R0, Rmult_1_l. assert (0 <= rho) by (eapply Rle_trans; [apply Rabs_pos|apply (H i)]). apply Rmult_le_pos; auto.
      * set (x := expo s i). change (0 = x + e i - x - e i). generalize (e i). intros z. change (0 = x + z - x - z). ring.
Qed.
Lemma step_gap s h : 0 < h ->
  h ^ S (onestep_order s) / INR (fact (S (onestep_order s))) <= exp h - step_r grow s 0 (expo 0) h tt.
Proof.
  intros Hh. pose proof (exp_taylor_le (S (S (onestep_order s))) h ltac:(lra)) as T.
  assert (E : tay (S (S (onestep_order s))) (fun _ _ => 1) 0 h
              = step_r grow s 0 (expo 0) h tt + h ^ S (onestep_order s) / INR (fact (S (onestep_order s)))).
  { destruct s; cbn [onestep_order step_r]; unfold euler_r, rk2_r, rk4_r, grow, expo; rewrite ?exp_0;
      cbn [tay fact Nat.add Nat.mul pow]; simpl INR; field. }
  lra.
Qed.
Lemma sharp s : ~ @step_order unit s grow (-1) 1 expo (S (onestep_order s)).
Proof.
  intros (C & h0 & Hh0 & H). set (p := onestep_order s) in *. set (F := INR (fact (S p))).
  assert (HF : 0 < F) by apply INR_fact_lt_0. set (C' := Rmax 0 C). assert (HC : 0 <= C') by apply Rmax_l.
  set (h := Rmin (h0 / 2) (Rmin (/ 2) (/ (2 * (C' + 1) * F)))).
  assert (P : 0 < 2 * (C' + 1) * F) by (apply Rmult_lt_0_compat; lra).
  assert (P' : 0 < / (2 * (C' + 1) * F)) by (apply Rinv_0_lt_compat, P).
  assert (Hh : h <= h0 / 2 /\ h <= / 2 /\ h <= / (2 * (C' + 1) * F) /\ 0 < h).
  { unfold h. pose proof (Rmin_l (h0 / 2) (Rmin (/ 2) (/ (2 * (C' + 1) * F)))). pose proof (Rmin_r (h0 / 2) (Rmin (/ 2) (/ (2 * (C' + 1) * F)))).
    pose proof (Rmin_l (/ 2) (/ (2 * (C' + 1) * F))). pose proof (Rmin_r (/ 2) (/ (2 * (C' + 1) * F))).
    repeat split; try lra. repeat apply Rmin_glb_lt; lra. }
  destruct Hh as (H1 & H2 & H3 & H4). destruct (H 0 h ltac:(lra) ltac:(lra) ltac:(lra)) as (u & E & Hu).
  rewrite step_is in E. injection E as <-. specialize (Hu tt). rewrite Rplus_0_l in Hu.
  change (Rabs (step_r grow s 0 (expo 0) h tt - exp h) <= C * h ^ S (S p)) in Hu.
  pose proof (step_gap s h H4) as G. fold p in G. fold F in G.
  rewrite Rabs_minus_sym in Hu. pose proof (Rle_abs (exp h - step_r grow s 0 (expo 0) h tt)).
  assert (hp : 0 < h ^ S p) by (apply pow_lt, H4).
  assert (X : C * h ^ S (S p) <= C' * h * h ^ S p).
  { replace (C' * h * h ^ S p) with (C' * h ^ S (S p)) by (simpl; ring). apply Rmult_le_compat_r; [apply pow_le; lra|apply Rmax_r]. }
  assert (Y : / F * h ^ S p <= C' * h * h ^ S p). { unfold Rdiv in G. rewrite Rmult_comm. lra. }
  apply Rmult_le_reg_r in Y; [|exact hp].
  assert (Z : (C' + 1) * h <= (C' + 1) * / (2 * (C' + 1) * F)) by (apply Rmult_le_compat_l; lra).
  replace ((C' + 1) * / (2 * (C' + 1) * F)) with (/ 2 * / F) in Z by (field; lra).
  assert (0 < / F) by (apply Rinv_0_lt_compat, HF). lra.
Qed.

(** ** an instance: du/dt = u^2, dv/dt = 2 u v, with u = 1/(2-t) and v = 1/(2-t)^2 *)
Definition blow : R -> (bool -> R) -> bool -> R :=
  fun _ u i => if i then u true * u true else 2 * u true * u false.
Definition hyper (k : nat) (t : R) (i : bool) : R :=
  if i then INR (fact k) * (/ (2 - t)) ^ S k else INR (fact (S k)) * (/ (2 - t)) ^ S (S k).
Definition hyp : R -> bool -> R := hyper 0.

Lemma inv_derive t : -1 < t < 1 -> derivable_pt_lim (fun r => / (2 - r)) t ((/ (2 - t)) ^ 2).
Proof.
  intros Ht. replace (fun r => / (2 - r)) with (fun r => 1 / (2 - r)) by (extensionality r; unfold Rdiv; ring).
  eapply dl_eq; [|apply (derivable_pt_lim_div (fun _ => 1) (fun r => 2 - r) t 0 (0 - 1))].
  2:{ apply derivable_pt_lim_const. }
  2:{ apply (derivable_pt_lim_minus (fun _ => 2) (fun r => r)); [apply derivable_pt_lim_const|apply derivable_pt_lim_id]. }
  2:{ lra. }
  unfold Rsqr. field. lra.
Qed.
Lemma ipow_derive c k t : -1 < t < 1 -> derivable_pt_lim (fun r => c * (/ (2 - r)) ^ S k) t (c * INR (S k) * (/ (2 - t)) ^ S (S k)).
Proof.
  intros Ht. eapply dl_eq; [|apply (derivable_pt_lim_comp (fun r => / (2 - r)) (fun z => c * z ^ S k)); [apply inv_derive, Ht|apply dl_pow_c]].
  cbn [pred]. simpl pow. ring.
Qed.
Lemma inv_range t : -1 < t < 1 -> 0 < / (2 - t) <= 1.
Proof.
  intros Ht. split; [apply Rinv_0_lt_compat; lra|]. rewrite <- Rinv_1. apply Rinv_le_contravar; lra.
Qed.
Lemma hyp_smooth n : @smooth bool n (-1) 1 hyp.
Proof.
  exists hyper, (INR (fact (S n))). split; [reflexivity|]. split.
  - intros k s i _ Hs. destruct i; cbn [hyper].
    + eapply dl_eq; [|apply ipow_derive, Hs]. f_equal. rewrite <- mult_INR. f_equal. cbn [fact]. ring.
    + eapply dl_eq; [|apply ipow_derive, Hs]. f_equal. rewrite <- mult_INR. f_equal.
      change (fact (S (S k))) with (S (S k) * fact (S k))%nat. ring.
  - intros k s Hk Hs i. pose proof (inv_range s Hs) as Hi.
    assert (B : forall j m, (j <= S n)%nat -> Rabs (INR (fact j) * (/ (2 - s)) ^ m) <= INR (fact (S n))).
    { intros j m Hj. assert (0 <= (/ (2 - s)) ^ m <= 1).
      { split; [apply pow_le; lra|]. rewrite <- (pow1 m). apply pow_incr. lra. }
      assert (0 < INR (fact j)) by apply INR_fact_lt_0.
      rewrite Rabs_right by (apply Rle_ge, Rmult_le_pos; lra).
      rewrite <- (Rmult_1_r (INR (fact (S n)))). apply Rmult_le_compat; try lra. apply le_INR, fact_le, Hj. }
    destruct i; cbn [hyper]; apply B; lia.
Qed.
Lemma hyp_solves : @solves bool blow (-1) 1 hyp.
Proof.
  intros s i Hs. unfold hyp. destruct i; cbn [hyper blow].
  - eapply dl_eq; [|apply ipow_derive, Hs]. simpl. ring.
  - eapply dl_eq; [|apply ipow_derive, Hs]. simpl. ring.
Qed.
Lemma hyp_range s i : -1 < s < 1 -> Rabs (hyp s i) <= 1.
Proof.
  intros Hs. pose proof (inv_range s Hs) as H. unfold hyp. destruct i; cbn [hyper fact]; simpl.
  - rewrite Rabs_right; lra.
  - assert (0 <= / (2 - s) * / (2 - s) <= 1 * 1).
    { split; [apply Rmult_le_pos; lra|apply Rmult_le_compat; lra]. }
    rewrite Rabs_right; lra.
Qed.
Lemma hyp_lip s s' i : -1 < s < 1 -> -1 < s' < 1 -> Rabs (hyp s i - hyp s' i) <= 2 * Rabs (s - s').
Proof.
  intros Hs Hs'. pose proof (inv_range s Hs) as H. pose proof (inv_range s' Hs') as H'.
  assert (E : / (2 - s) - / (2 - s') = (s - s') * (/ (2 - s) * / (2 - s'))) by (field; lra).
  assert (P : 0 <= / (2 - s) * / (2 - s') <= 1 * 1).
  { split; [apply Rmult_le_pos; lra|apply Rmult_le_compat; lra]. }
  assert (B : Rabs (/ (2 - s) - / (2 - s')) <= Rabs (s - s')).
  { rewrite E, Rabs_mult, (Rabs_right (/ (2 - s) * / (2 - s'))) by lra.
    rewrite <- (Rmult_1_r (Rabs (s - s'))) at 2. apply Rmult_le_compat_l; [apply Rabs_pos|lra]. }
  unfold hyp. destruct i; cbn [hyper fact]; simpl.
  - replace (1 * (/ (2 - s) * 1) - 1 * (/ (2 - s') * 1)) with (/ (2 - s) - / (2 - s')) by ring.
    pose proof (Rabs_pos (s - s')). lra.
  - replace ((1) * (/ (2 - s) * (/ (2 - s) * 1)) - 1 * (/ (2 - s') * (/ (2 - s') * 1)))
      with ((/ (2 - s) - / (2 - s')) * (/ (2 - s) + / (2 - s'))) by ring.
    rewrite Rabs_mult, (Rabs_right (/ (2 - s) + / (2 - s'))) by lra. rewrite Rmult_comm.
    apply Rmult_le_compat; try lra. apply Rabs_pos.
Qed.
Lemma prod_close x x' z z' B rho : Rabs x <= B -> Rabs z' <= B -> Rabs (x - x') <= rho -> Rabs (z - z') <= rho ->
  Rabs (x * z - x' * z') <= 2 * B * rho.
Proof.
  intros Hx Hz Hxx Hzz. replace (x * z - x' * z') with (x * (z - z') + (x - x') * z') by ring.
  eapply Rle_trans; [apply Rabs_triang|]. rewrite !Rabs_mult.
  assert (Rabs x * Rabs (z - z') <= B * rho) by (apply Rmult_le_compat; auto; apply Rabs_pos).
  assert (Rabs (x - x') * Rabs z' <= rho * B) by (apply Rmult_le_compat; auto; apply Rabs_pos).
  lra.
Qed.
Lemma blow_lipschitz : @lipschitz_near bool blow (-1) 1 hyp.
Proof.
  exists 1, 8. split; [lra|]. intros s v w rho Hs Hv Hw Hvw.
  assert (B : forall (u : bool -> R) i, @within bool (@vsub RF bool u (hyp s)) 1 -> Rabs (u i) <= 2).
  { intros u i Hu. specialize (Hu i). change (Rabs (u i - hyp s i) <= 1) in Hu. pose proof (hyp_range s i Hs) as H.
    pose proof (Rabs_triang (u i - hyp s i) (hyp s i)) as T. replace (u i - hyp s i + hyp s i) with (u i) in T by ring. lra. }
  assert (D : forall i, Rabs (v i - w i) <= rho) by exact Hvw.
  intros i. change (Rabs (blow s v i - blow s w i) <= 8 * rho).
  assert (R0 : 0 <= rho) by (eapply Rle_trans; [apply Rabs_pos|apply (D true)]).
  destruct i; cbn [blow].
  - pose proof (prod_close (v true) (w true) (v true) (w true) 2 rho (B v true Hv) (B w true Hw) (D true) (D true)). lra.
  - pose proof (prod_close (v true) (w true) (v false) (w false) 2 rho (B v true Hv) (B w false Hw) (D true) (D false)) as P.
    rewrite !Rmult_assoc, <- Rmult_minus_distr_l, Rabs_mult, (Rabs_right 2) by lra. lra.
Qed.
Definition blowJ (s : R) (e : bool -> R) : bool -> R :=
  fun i => if i then 2 * hyp s true * e true else 2 * (hyp s true * e false + hyp s false * e true).
Lemma blow_differentiable : @differentiable_near bool blow (-1) 1 hyp.
Proof.
  exists blowJ, 1, 8. split; [lra|]. split.
  { intros s. split.
    - intros u v. extensionality i. change (blowJ s (fun i => u i + v i) i = blowJ s u i + blowJ s v i). destruct i; cbn [blowJ]; unfold blowJ; ring_simplify; ring.
    - intros c u. extensionality i. change (blowJ s (fun i => c * u i) i = c * blowJ s u i). destruct i; cbn [blowJ]; unfold blowJ; ring. }
  assert (M2 : forall x z B rho, Rabs x <= B -> Rabs z <= rho -> Rabs (x * z) <= B * rho).
  { intros x z B rho Hx Hz. rewrite Rabs_mult. apply Rmult_le_compat; auto; apply Rabs_pos. }
  split; [|split].
  - intros s e rho Hs He i. assert (D : forall i, Rabs (e i) <= rho) by exact He.
    assert (R0 : 0 <= rho) by (eapply Rle_trans; [apply Rabs_pos|apply (D true)]).
    destruct i; unfold blowJ.
    + rewrite Rmult_assoc, Rabs_mult, (Rabs_right 2) by lra. pose proof (M2 _ _ _ _ (hyp_range s true Hs) (D true)). lra.
    + rewrite Rabs_mult, (Rabs_right 2) by lra. pose proof (M2 _ _ _ _ (hyp_range s true Hs) (D false)).
      pose proof (M2 _ _ _ _ (hyp_range s false Hs) (D true)). pose proof (Rabs_triang (hyp s true * e false) (hyp s false * e true)). lra.
  - intros s s' e rho Hs Hs' He i. assert (D : forall i, Rabs (e i) <= rho) by exact He.
    assert (R0 : 0 <= rho) by (eapply Rle_trans; [apply Rabs_pos|apply (D true)]).
    change (Rabs (blowJ s e i - blowJ s' e i) <= 8 * Rabs (s - s') * rho).
    assert (Q : 0 <= Rabs (s - s') * rho) by (apply Rmult_le_pos; auto; apply Rabs_pos).
    destruct i; unfold blowJ.
    + replace (2 * hyp s true * e true - 2 * hyp s' true * e true) with (2 * ((hyp s true - hyp s' true) * e true)) by ring.
      rewrite Rabs_mult, (Rabs_right 2) by lra. pose proof (M2 _ _ _ _ (hyp_lip s s' true Hs Hs') (D true)). lra.
    + replace (2 * (hyp s true * e false + hyp s false * e true) - 2 * (hyp s' true * e false + hyp s' false * e true))
        with (2 * ((hyp s true - hyp s' true) * e false + (hyp s false - hyp s' false) * e true)) by ring.
      rewrite Rabs_mult, (Rabs_right 2) by lra. pose proof (M2 _ _ _ _ (hyp_lip s s' true Hs Hs') (D false)).
      pose proof (M2 _ _ _ _ (hyp_lip s s' false Hs Hs') (D true)).
      pose proof (Rabs_triang ((hyp s true - hyp s' true) * e false) ((hyp s false - hyp s' false) * e true)). lra.
  - intros s e rho Hs Hr He i. assert (D : forall i, Rabs (e i) <= rho) by exact He.
    assert (R0 : 0 <= rho) by (eapply Rle_trans; [apply Rabs_pos|apply (D true)]).
    change (Rabs (blow s (fun i => hyp s i + e i) i - blow s (hyp s) i - blowJ s e i) <= 8 * (rho * rho)).
    assert (Q : 0 <= rho * rho) by (apply Rmult_le_pos; auto).
    destruct i; cbn [blow]; unfold blowJ.
    + replace ((hyp s true + e true) * (hyp s true + e true) - hyp s true * hyp s true - 2 * hyp s true * e true) with (e true * e true) by ring.
      pose proof (M2 _ _ _ _ (D true) (D true)). lra.
    + replace (2 * (hyp s true + e true) * (hyp s false + e false) - 2 * hyp s true * hyp s false - 2 * (hyp s true * e false + hyp s false * e true))
        with (2 * (e true * e false)) by ring.
      rewrite Rabs_mult, (Rabs_right 2) by lra. pose proof (M2 _ _ _ _ (D true) (D false)). lra.
Qed.

(** ** leapfrog *)
Lemma leapfrog_local {I} (f : R -> (I -> R) -> I -> R) a b (y : R -> I -> R) : @smooth I 3 a b y -> @solves I f a b y ->
  exists C, forall t h, a < t - h -> t + h < b -> 0 < h ->
    exists u, leapfrog (@pure RF I f) t [y (t - h); y t] h = Ok [y t; u] /\ @within I (@vsub RF I u (y (t + h))) (C * h ^ 3).
Proof.
  intros (d & M & D0 & DD & DM) S. exists (M / 3). intros t h Ht Hb Hh.
  exists (fun i => y (t - h) i + 2 * h * f t (y t) i). split.
  - unfold leapfrog, pure, bind. rewrite fnat2_R. reflexivity.
  - intros i. change (Rabs (y (t - h) i + 2 * h * f t (y t) i - y (t + h) i) <= M / 3 * h ^ 3).
    rewrite (trend_d1 f a b y d 3 D0 DD S t ltac:(lia) ltac:(lra)).
    rewrite <- !D0.
    assert (N : forall s, near t h s -> a < s < b).
    { intros s Hs. unfold near in Hs. pose proof (Rle_abs (s - t)). pose proof (Rle_abs (- (s - t))) as Q. rewrite Rabs_Ropp in Q. lra. }
    pose proof (odd_bound3 t h M ltac:(lra) (fun s => d 0%nat s i) (fun s => d 1%nat s i) (fun s => d 2%nat s i) (fun s => d 3%nat s i)) as O.
    cbv beta in O. rewrite Rabs_minus_sym.
    replace (d 0%nat (t + h) i - (d 0%nat (t - h) i + 2 * h * d 1%nat t i)) with (d 0%nat (t + h) i - d 0%nat (t - h) i - 2 * d 1%nat t i * h).
    + eapply Rle_trans; [apply O|]; try (intros s Hs; apply DD; [lia|apply N, Hs]); try (intros s Hs; apply DM; [lia|apply N, Hs]). lra.
    + set (p := d 0%nat (t + h) i). set (q := d 0%nat (t - h) i). set (z := d 1%nat t i). change (p - q - 2 * z * h = p - (q + 2 * h * z)). ring.
Qed.
