(** Forecasts of the parametric dynamics of advection started from the statistics of an ensemble. *)
From Coq Require Import List Arith ZArith Bool Reals String Lia Lra Psatz Permutation FunctionalExtensionality.
From Verif Require Import PyBase PyBaseFacts Scalars FieldFacts SymModel FDExprModel FDExprSpec FDReal GridModel GridSpec ForecastModel ForecastSpec ConsistSpec ConsistProofs ConsistMain
  SchemesModel SchemesSpec SchemesProofs SchemesProps LineModel LineSpec LineConv EnergySpec EnergyProofs AdvectModel AdvectSpec AdvectTrend AdvectGrid AdvectConv WindNorm WindGrid WindSpec WindConv WindMain
  StatModel StatSmooth StatInverse StatSpec StatMean StatTrend StatConv.
Import ListNotations.
Open Scope R_scope.

(** ** inverses *)
Lemma inverse_unique n A A' B B' : inverse_of n A B -> inverse_of n A' B' -> StatInverse.same n A A' -> StatInverse.same n B B'.
Proof.
  intros I I' E a b Ha Hb. pose proof (inverse_diff n A B A' B' I I' a b Ha Hb) as Q. unfold madd at 1, mopp at 1 2 in Q. rewrite mm3 in Q.
  rewrite (sumk_ext n _ (fun _ => 0)) in Q; [rewrite sumk_zero in Q; lra|].
  intros c Hc. rewrite (sumk_ext n _ (fun _ => 0)); [apply sumk_zero|]. intros d Hd. unfold madd, mopp. rewrite (E c d Hc Hd). ring.
Qed.
Lemma inverse_transpose n A B : inverse_of n A B -> inverse_of n (fun a b => A b a) (fun a b => B b a).
Proof.
  intros [H1 H2]. split; intros a b Ha Hb; unfold mm.
  - rewrite (sumk_ext n _ (fun c => B b c * A c a)) by (intros; ring). specialize (H2 b a Hb Ha). unfold mm in H2. rewrite H2. unfold unit_mat. rewrite Nat.eqb_sym. reflexivity.
  - rewrite (sumk_ext n _ (fun c => A b c * B c a)) by (intros; ring). specialize (H1 b a Hb Ha). unfold mm in H1. rewrite H1. unfold unit_mat. rewrite Nat.eqb_sym. reflexivity.
Qed.

Section Statistics.
  Variables (n : nat) (lengths : list R) (w : nat -> multi -> point -> R) (V : nat -> R) (T0 T1 : R) (N : nat) (pi : nat -> R).
  Variables (u : nat -> nat -> R -> multi -> point -> R) (s : nat -> nat -> R -> point -> R).
  Hypothesis SW : smooth_winds n lengths w V.
  Hypothesis CE : carried_ensemble n lengths w T0 T1 N pi u s.
  Notation on t := (T0 < t < T1).
  Notation c := (fun r t p => u r O t none p).
  Definition metric (d : nat -> nat -> R -> point -> R) (t : R) (p : point) (a b : nat) : R := average N pi (fun r => d r a t p * d r b t p).
  Lemma aspect_inverse : exists d, (forall r a t p, (r < N)%nat -> (a < n)%nat -> on t -> derivable_pt_lim (fun x => ens_normal N pi c r t (@at_coord RF p a x)) (p a) (d r a t p)) /\
    forall t p, on t -> inverse_of n (metric d t p) (fun a b => s a b t p).
  Proof.
    destruct (ce_aspect _ _ _ _ _ _ _ _ _ CE) as (d & Dd & I). exists d. split; [exact Dd|]. intros t p Ht. split; intros a b Ha Hb.
    - exact (proj1 (I t p a b Ht Ha Hb)).
    - exact (proj2 (I t p a b Ht Ha Hb)).
  Qed.
  Lemma aspect_symmetric a b t p : (a < n)%nat -> (b < n)%nat -> on t -> s a b t p = s b a t p.
  Proof.
    intros Ha Hb Ht. destruct aspect_inverse as (d & _ & I). specialize (I t p Ht).
    refine (inverse_unique n _ _ _ _ I (inverse_transpose n _ _ I) _ a b Ha Hb). intros x y _ _. unfold metric, average. f_equal. apply map_ext. intros r. ring.
  Qed.
  Lemma member_period r t : (r < N)%nat -> on t -> periodic lengths (c r t).
  Proof. intros Hr Ht. exact (ev_period _ _ _ _ _ _ (ce_members _ _ _ _ _ _ _ _ _ CE r Hr) t ltac:(lra)). Qed.
  Lemma average_ext (f g : nat -> R) : (forall r, (r < N)%nat -> f r = g r) -> average N pi f = average N pi g.
  Proof. intros H. unfold average. f_equal. apply map_ext_in. intros r Hr. apply in_seq in Hr. rewrite H by lia. reflexivity. Qed.
  Lemma mean_period t : on t -> periodic lengths (ens_mean N pi c t).
  Proof. intros Ht k p L HL. unfold ens_mean. apply average_ext. intros r Hr. apply (member_period r t Hr Ht k p L HL). Qed.
  Lemma error_period r t : (r < N)%nat -> on t -> periodic lengths (ens_error N pi c r t).
  Proof. intros Hr Ht k p L HL. unfold ens_error. rewrite (mean_period t Ht k p L HL). f_equal. apply (member_period r t Hr Ht k p L HL). Qed.
  Lemma variance_period t : on t -> periodic lengths (ens_variance N pi c t).
  Proof. intros Ht k p L HL. unfold ens_variance. apply average_ext. intros r Hr. rewrite (error_period r t Hr Ht k p L HL). reflexivity. Qed.
  Lemma normal_period r t : (r < N)%nat -> on t -> periodic lengths (ens_normal N pi c r t).
  Proof. intros Hr Ht k p L HL. unfold ens_normal. rewrite (variance_period t Ht k p L HL), (error_period r t Hr Ht k p L HL). reflexivity. Qed.
  Lemma aspect_period a b t : (a < n)%nat -> (b < n)%nat -> on t -> periodic lengths (s a b t).
  Proof.
    intros Ha Hb Ht k p L HL. destruct aspect_inverse as (d & Dd & I).
    refine (inverse_unique n _ _ _ _ (I t (@at_coord RF p k (p k + L)%R) Ht) (I t p Ht) _ a b Ha Hb).
    intros x y Hx Hy. unfold metric. apply average_ext. intros r Hr.
    assert (G : forall e, (e < n)%nat -> d r e t (@at_coord RF p k (p k + L)%R) = d r e t p).
    { intros e He. pose proof (Dd r e t p Hr He Ht) as D1. pose proof (Dd r e t (@at_coord RF p k (p k + L)%R) Hr He Ht) as D2.
      pose proof (normal_period r t Hr Ht) as NP.
      destruct (Nat.eq_dec e k) as [->|Ne].
      - assert (X : @at_coord RF p k (p k + L)%R k = p k + L) by (unfold at_coord; destruct (Nat.eq_dec k k); [reflexivity|congruence]).
        rewrite X in D2.
        assert (Q : (fun y : R => ens_normal N pi c r t (@at_coord RF (@at_coord RF p k (p k + L)%R) k y)) = (fun y : R => ens_normal N pi c r t (@at_coord RF p k (y + - L)%R))).
        { apply functional_extensionality. intros z. pose proof (NP k (@at_coord RF p k (z + - L)%R) L HL) as P.
          assert (Z1 : @at_coord RF p k (z + - L)%R k = z + - L) by (unfold at_coord; destruct (Nat.eq_dec k k); [reflexivity|congruence]).
          rewrite Z1 in P. rewrite <- P. f_equal. apply functional_extensionality. intros i. unfold at_coord. destruct (Nat.eq_dec k i); [cbn; ring|reflexivity]. }
        rewrite Q in D2.
        assert (D3 : derivable_pt_lim (fun y : R => ens_normal N pi c r t (@at_coord RF p k (y + - L)%R)) (p k + L) (d r k t p * 1)).
        { apply (derivable_pt_lim_comp (fun y => y + - L) (fun y => ens_normal N pi c r t (@at_coord RF p k y)) (p k + L) 1 (d r k t p)).
          - replace 1 with (1 + 0) by ring. apply (derivable_pt_lim_plus (fun y => y) (fun _ => - L)); [apply derivable_pt_lim_id|apply derivable_pt_lim_const].
          - cbv beta. replace (p k + L + - L) with (p k) by (change (F RF) with R in *; ring). exact D1. }
        rewrite (uniqueness_limite _ _ _ _ D2 D3). ring.
      - assert (X : @at_coord RF p k (p k + L)%R e = p e) by (unfold at_coord; destruct (Nat.eq_dec k e); [congruence|reflexivity]).
        rewrite X in D2.
        assert (Q : (fun y : R => ens_normal N pi c r t (@at_coord RF (@at_coord RF p k (p k + L)%R) e y)) = (fun y : R => ens_normal N pi c r t (@at_coord RF p e y))).
        { apply functional_extensionality. intros z. pose proof (NP k (@at_coord RF p e z) L HL) as P.
          assert (Z1 : @at_coord RF p e z k = p k) by (unfold at_coord; destruct (Nat.eq_dec e k); [congruence|reflexivity]).
          rewrite Z1 in P. rewrite <- P. f_equal. apply functional_extensionality. intros i. unfold at_coord. destruct (Nat.eq_dec k i), (Nat.eq_dec e i); try reflexivity. congruence. }
        rewrite Q in D2. exact (uniqueness_limite _ _ _ _ D2 D1). }
    rewrite (G x Hx), (G y Hy). reflexivity.
  Qed.
End Statistics.

(** ** the statistics are solutions of the system of the mixed rows *)
Definition stat_row (c : advect) (i : nat) : option qty := nth_error (statistics_of c) i.
Lemma row_some c i : (i < rows c)%nat -> exists q, nth_error (statistics_of c) i = Some q.
Proof. intros H. destruct (nth_error (statistics_of c) i) as [q|] eqn:E; eauto. apply nth_error_None in E. unfold rows in H. lia. Qed.
Lemma rows_count c : statistics_count (dims c) = rows c.
Proof. destruct c; reflexivity. Qed.
Definition qstat (N : nat) (pi : nat -> R) (m : nat -> R -> point -> R) (s : nat -> nat -> R -> point -> R) (q : qty) : R -> point -> R :=
  match q with QMean => ens_mean N pi m | QVar => ens_variance N pi m | QAsp a b => s a b | QWind _ => fun _ _ => 0 end.
Lemma statistic_q c N pi m s i q : nth_error (statistics_of c) i = Some q -> statistic (dims c) N pi m s i = qstat N pi m s q.
Proof.
  intros H. destruct c; cbn in H; repeat (destruct i as [|i]; [cbn in H; injection H as <-; reflexivity|]); destruct i; discriminate H.
Qed.
Lemma row_of_asp c a b : (a < dims c)%nat -> (b < dims c)%nat -> nth_error (statistics_of c) (srow c (asp a b)) = Some (asp a b).
Proof. intros Ha Hb. destruct c; unfold dims in *; cbn in Ha, Hb; do 3 (destruct a as [|a]; [do 3 (destruct b as [|b]; [try lia; vm_compute; reflexivity|]); lia|]); lia. Qed.

Section Evolve.
  Variables (c : advect) (lengths : list R) (w : nat -> multi -> point -> R) (V : nat -> R) (T0 T1 : R) (N : nat) (pi : nat -> R).
  Variables (u : nat -> nat -> R -> multi -> point -> R) (s : nat -> nat -> R -> point -> R).
  Notation n := (dims c).
  Hypothesis SW : smooth_winds n lengths w V.
  Hypothesis CE : carried_ensemble n lengths w T0 T1 N pi u s.
  Notation on t := (T0 < t < T1).
  Notation m := (fun r t p => u r O t none p).
  Notation st := (statistic n N pi m s).
  Definition wz (i j : nat) (p : point) : R := mixz c (fun b k p => w b (inc k none) p) i j p.
  Lemma statistic_smooth i : (i < rows c)%nat -> smoothf n T0 T1 (st i).
  Proof.
    intros Hi. destruct (row_some c i Hi) as (q & E). rewrite (statistic_q c N pi m s i q E). destruct (statistics_in c i q E) as (Ok & Nw & _).
    destruct q as [| |a b|k]; cbn [qstat].
    - apply (mean_smooth n lengths w T0 T1 N pi u s); auto.
    - apply (variance_smooth n lengths w T0 T1 N pi u s); auto.
    - destruct Ok. apply (aspect_smooth n lengths w T0 T1 N pi u s); auto; lia.
    - exfalso. apply (Nw k). reflexivity.
  Qed.
  Lemma statistic_period i t : (i < rows c)%nat -> on t -> periodic lengths (st i t).
  Proof.
    intros Hi Ht. destruct (row_some c i Hi) as (q & E). rewrite (statistic_q c N pi m s i q E). destruct (statistics_in c i q E) as (Ok & Nw & _).
    destruct q as [| |a b|k]; cbn [qstat].
    - apply (mean_period n lengths w T0 T1 N pi u s CE t Ht).
    - apply (variance_period n lengths w T0 T1 N pi u s CE t Ht).
    - destruct Ok. apply (aspect_period n lengths w T0 T1 N pi u s CE a b t); auto; lia.
    - exfalso. apply (Nw k). reflexivity.
  Qed.
  Lemma statistic_asp a b t p : (a < n)%nat -> (b < n)%nat -> on t -> st (srow c (asp a b)) t p = s a b t p.
  Proof.
    intros Ha Hb Ht. rewrite (statistic_q c N pi m s _ _ (row_of_asp c a b Ha Hb)). unfold asp. destruct (Nat.ltb b a); cbn [qstat]; [|reflexivity].
    apply (aspect_symmetric n lengths w T0 T1 N pi u s CE b a t p Hb Ha Ht).
  Qed.
  Lemma statistic_time i t p d : (i < rows c)%nat -> on t -> (forall k, (k < n)%nat -> deriv (Some k) (st i) t p (d k)) ->
    deriv None (st i) t p (- sumk n (fun k => w k none p * d k) + sumk (rows c) (fun j => wz i j p * st j t p)).
  Proof.
    intros Hi Ht D. unfold wz. rewrite mixz_sum. destruct (row_some c i Hi) as (q & E). rewrite E.
    rewrite (statistic_q c N pi m s i q E) in *. destruct (statistics_in c i q E) as (Ok & Nw & _).
    destruct q as [| |a b|k]; cbn [qstat] in *.
    - rewrite Rplus_0_r. apply (mean_carried n lengths w T0 T1 N pi u s); auto.
    - rewrite Rplus_0_r. apply (variance_carried n lengths w T0 T1 N pi u s); auto.
    - destruct Ok. rewrite (sumk_ext n (fun k => w b (inc k none) p * st (srow c (asp a k)) t p + w a (inc k none) p * st (srow c (asp k b)) t p)
        (fun k => s a k t p * w b (inc k none) p + s k b t p * w a (inc k none) p)).
      + apply (aspect_time n lengths w V T0 T1 N pi u s SW CE a b t p d); auto; lia.
      + intros k Hk. rewrite !statistic_asp by (auto; lia). ring.
    - exfalso. apply (Nw k). reflexivity.
  Qed.
  Lemma statistic_families : exists U, forall i, (i < rows c)%nat -> family n T0 T1 (U i) /\ forall t p, on t -> U i O t none p = st i t p.
  Proof.
    apply (finite_choice (fun i U => family n T0 T1 U /\ forall t p, on t -> U O t none p = st i t p) (rows c) (fun _ _ _ _ => 0)).
    intros i Hi. exact (statistic_smooth i Hi).
  Qed.
  Lemma statistic_evolutions t0 t1 : T0 < t0 -> t1 < T1 -> exists U, evolutions (rows c) n lengths (fun k => w k none) wz t0 t1 U /\
    forall i t p, (i < rows c)%nat -> t0 <= t <= t1 -> U i O t none p = st i t p.
  Proof.
    intros H0 H1. destruct statistic_families as (U & HU). exists U. assert (On : forall t, t0 <= t <= t1 -> on t) by (intros; lra).
    split; [|intros i t p Hi Ht; apply (proj2 (HU i Hi)), On, Ht]. split.
    - intros i k t Hi Ht. apply (fa_space _ _ _ _ (proj1 (HU i Hi))), On, Ht.
    - intros i k a t p Hi Ht. apply (fa_time _ _ _ _ (proj1 (HU i Hi))), On, Ht.
    - intros i t p Hi Ht. specialize (On t Ht). destruct (HU i Hi) as [F E].
      rewrite (sumk_ext (rows c) _ (fun j => wz i j p * st j t p)) by (intros j Hj; rewrite (proj2 (HU j Hj)) by auto; reflexivity).
      eapply (deriv_unique T0 T1 None (fun t p => U i O t none p) (st i) t p); [exact On|exact E|exact (fa_time _ _ _ _ F O none t p On)|].
      pose proof (statistic_time i t p (fun k => U i O t (inc k none) p) Hi On) as X. unfold carried_by. fold (sumk n (fun k => w k none p * U i O t (inc k none) p)).
      apply X. intros k Hk. unfold deriv. pose proof (fa_space _ _ _ _ F O t On none k p Hk) as Y.
      assert (Q : (fun y : R => st i t (@at_coord RF p k y)) = (fun y : R => U i O t none (@at_coord RF p k y))) by (apply functional_extensionality; intros y; symmetry; apply E, On).
      rewrite Q. exact Y.
    - intros i t Hi Ht k p L HL. specialize (On t Ht). rewrite !(proj2 (HU i Hi)) by auto. apply (statistic_period i t Hi On k p L HL).
    - intros i k a Hi. destruct (fa_bounded _ _ _ _ (proj1 (HU i Hi)) k a) as (B & HB). exists B. intros; apply HB, On; auto.
  Qed.
  Lemma winds_variable : exists L, variable_winds n lengths (fun k => w k none) V L.
  Proof.
    destruct (finite_choice (fun k B => forall p, Rabs (w k (inc k none) p) <= B) n 0) as (L & HL); [intros k Hk; apply (sw_bounded _ _ _ _ SW k (inc k none) Hk)|].
    exists L. split; [apply (sw_period _ _ _ _ SW)|intros; apply (sw_speed _ _ _ _ SW); auto|].
    exists (fun k p => w k (inc k none) p). intros k p Hk. split; [apply (sw_space _ _ _ _ SW k Hk none k p Hk)|apply HL; auto].
  Qed.
  Lemma wind_bound (f : nat -> nat -> multi) : exists B, 0 <= B /\ forall b k p, (b < n)%nat -> (k < n)%nat -> Rabs (w b (f b k) p) <= B.
  Proof.
    assert (G : forall (P : nat -> R -> Prop), (forall i x y, P i x -> x <= y -> P i y) -> forall q, (forall i, (i < q)%nat -> exists B, 0 <= B /\ P i B) -> exists B, 0 <= B /\ forall i, (i < q)%nat -> P i B).
    { intros P M q. induction q as [|q IH]; intros H; [exists 0; split; [lra|lia]|]. destruct IH as (B & PB & HB); [intros; apply H; lia|]. destruct (H q ltac:(lia)) as (B' & PB' & HB').
      exists (B + B'). split; [lra|]. intros i Hi. destruct (Nat.eq_dec i q) as [->|]; [eapply M; [exact HB'|lra]|eapply M; [apply HB; lia|lra]]. }
    destruct (G (fun b B => forall k p, (k < n)%nat -> Rabs (w b (f b k) p) <= B)) with (q := n) as (B & PB & HB).
    - intros i x y H L k p Hk. specialize (H k p Hk). lra.
    - intros b Hb. destruct (G (fun k B => forall p, Rabs (w b (f b k) p) <= B)) with (q := n) as (B & PB & HB).
      + intros i x y H L p. specialize (H p). lra.
      + intros k Hk. destruct (sw_bounded _ _ _ _ SW b (f b k) Hb) as (B & HB). exists B. split; [|exact HB]. eapply Rle_trans; [apply Rabs_pos|apply (HB (fun _ => 0))].
      + exists B. split; auto.
    - exists B. split; [exact PB|]. intros; apply HB; auto.
  Qed.
End Evolve.

(** ** the rows of the state *)
Section Rows.
  Variables (c : advect) (lengths : list R) (shape : list nat) (W : list (list nat -> R)).
  Variables (enum : list sx -> list sx) (x : nat -> R) (ord : list datom -> list datom).
  Variables (rpow : R -> R -> R) (g : @grid RF) (caches : R -> list (string * nat) -> (list nat -> R) -> cache).
  Variable attr : string -> res (list nat -> R).
  Hypothesis AC : advect_class c lengths shape W enum ord g caches attr.
  Notation trend := (generated_trend enum x ord rpow (axes c) g caches attr (pkf_advection c)).
  Definition slopes (i j : nat) (js : list nat) : R := mixz c (fun b k js => slope lengths shape k (wind_along W b) js) i j js.
  Notation f := (vflow (rows c) lengths shape (wind_along W) slopes).
  Definition vview (state : list nat -> R) : list nat -> R := cut (rows c :: shape) state.
  Lemma vview_linear : @linear RF (list nat) (list nat) vview.
  Proof. split; intros; apply functional_extensionality; intros js; unfold vview, cut, vadd, vscale; cbn [fadd fmul RF F]; destruct (inb (rows c :: shape) js); cbn [fadd fmul RF F]; ring. Qed.
  Lemma vtrend_view (t : R) state : @pure RF (list nat) (fun _ => f) t (vview state) = (v <- trend t state ;; Ok (vview v)).
  Proof.
    destruct (statistics_trend c lengths shape W enum x ord rpow g caches attr AC t state) as (r & E & H).
    rewrite E. cbn [bind]. unfold pure. f_equal. unfold vflow, vview. apply cut_eq. intros idx Hi. inversion Hi as [|i js ? ? Hi1 Hi2]; subst.
    rewrite H by auto. f_equal.
    - rewrite transported_row. unfold transported, over_axes. f_equal. f_equal. apply map_ext_in. intros k Hk.
      apply in_seq in Hk. f_equal. apply slope_ext; try lia; auto.
      intros ks Hks. unfold row_of, row. apply cut_in. constructor; auto.
    - cbn [mixed]. apply sumk_ext. intros j Hj. unfold slopes. f_equal. apply cut_in. constructor; auto.
  Qed.
  Lemma vstep_view sch (t dt : R) state : exists r, @onestep_fun RF (list nat) sch trend t state dt = Ok r /\
    vview r = @exp_taylor RF (list nat) f dt (onestep_order sch) (vview state).
  Proof.
    pose proof (C13_step_intertwines RF sch vview trend (@pure RF (list nat) (fun _ => f)) vview_linear vtrend_view t state dt) as X.
    pose proof (step_linear_exp RF sch f t (vview state) dt (vflow_linear (rows c) lengths shape (wind_along W) slopes)) as Y.
    change (@pure RF (list nat) (fun _ v => f v)) with (@pure RF (list nat) (fun _ => f)) in Y. cbn [F RF] in X, Y.
    destruct (@onestep_fun RF (list nat) sch trend t state dt) as [r|e]; cbn [bind] in X; [|congruence].
    exists r. split; auto. apply Ok_inj. transitivity (@onestep_fun RF (list nat) sch (@pure RF (list nat) (fun _ => f)) t (vview state) dt); [symmetry; exact X|exact Y].
  Qed.
End Rows.

(** ** forecasts *)
Lemma vflow_ext q lengths shape W W' Z Z' : (forall k js, (k < List.length shape)%nat -> in_range shape js -> W k js = W' k js) ->
  (forall i j js, in_range shape js -> Z i j js = Z' i j js) -> vflow q lengths shape W Z = vflow q lengths shape W' Z'.
Proof.
  intros H HZ. apply functional_extensionality. intros a. unfold vflow. apply cut_eq. intros idx Hi. inversion Hi as [|? i ? js Hi1 Hi2]; subst. f_equal.
  - rewrite !transported_row. unfold transported. f_equal. apply over_ext. intros k Hk. rewrite H by auto. reflexivity.
  - cbn [mixed]. apply sumk_ext. intros j _. rewrite HZ by auto. reflexivity.
Qed.
Lemma row_rms q lengths shape i (f : nat -> point -> R) r c : rows c = q -> (i < q)%nat -> (forall m, In m shape -> m <> O) ->
  row_error (spacings lengths shape) shape i (f i) r <= norm (dot (q :: shape)) (vsub (vview c shape r) (samples q lengths shape f)) / sqrt (points shape).
Proof.
  intros Eq Hi Hn. unfold row_error, rms_error. rewrite sqrt_div_alt by (apply points_pos; auto).
  apply Rmult_le_compat_r; [apply Rlt_le, Rinv_0_lt_compat, sqrt_lt_R0, points_pos; auto|]. unfold norm. apply sqrt_le_1_alt. unfold dot. rewrite gs_cons.
  set (G := fun i => GS shape (fun js => vsub (vview c shape r) (samples q lengths shape f) (i :: js) * vsub (vview c shape r) (samples q lengths shape f) (i :: js))).
  assert (P : forall i, 0 <= G i) by (intros j; apply gs_nonneg; intros; apply Rle_0_sqr).
  apply Rle_trans with (G i); [|apply below_sum; auto]. apply Req_le. unfold G. apply gs_ext. intros js Hj.
  assert (E : vsub (vview c shape r) (samples q lengths shape f) (i :: js) = r (i :: js) - f i (grid_point (spacings lengths shape) js)); [|rewrite E; reflexivity].
  unfold vsub, vadd, vscale. cbn [fadd fmul RF F]. unfold vview, samples. rewrite Eq. rewrite !cut_in by (constructor; auto). cbn. ring.
Qed.
Lemma side_le l : forall k, nth k l 0 <= largest l.
Proof. unfold largest. induction l as [|y l IH]; intros [|k]; cbn; try lra; [apply Rmax_l|]. eapply Rle_trans; [apply IH|apply Rmax_r]. Qed.
Lemma step_side lengths shape k : List.length shape = List.length lengths -> (forall m, In m shape -> m <> O) -> (forall y, In y lengths -> 0 < y) -> (k < List.length shape)%nat ->
  0 < step_of lengths shape k <= largest lengths.
Proof.
  intros Ls Hn Hp Hk. unfold step_of. assert (P : 0 < nth k lengths 0) by (apply Hp, nth_In; lia).
  assert (M : nth k shape O <> O) by (apply Hn, nth_In; auto). assert (I : 1 <= INR (nth k shape O)) by (apply (le_INR 1); lia).
  split; [apply Rdiv_lt_0_compat; lra|]. apply Rle_trans with (nth k lengths 0); [|apply side_le].
  apply (Rmult_le_reg_r (INR (nth k shape O))); [lra|]. unfold Rdiv. rewrite Rmult_assoc, Rinv_l by lra. nra.
Qed.

Theorem statistics_forecast c lengths w V T0 T1 N pi u s t0 t1 : smooth_winds (List.length lengths) lengths w V ->
  carried_ensemble (List.length lengths) lengths w T0 T1 N pi u s -> T0 < t0 -> t1 < T1 ->
  exists C, forall shape enum x ord rpow (g : @grid RF) caches attr tau win state sv,
    advect_class c lengths shape (wind_arrays (List.length lengths) (g_dx g) (fun k => w k none)) enum ord g caches attr ->
    runs t0 t1 tau win ->
    (forall i js, (i < statistics_count (List.length lengths))%nat -> in_range shape js ->
       state (i :: js) = statistic (List.length lengths) N pi (fun r t p => u r O t none p) s i t0 (grid_point (g_dx g) js)) ->
    0 <= tau -> tau * courant lengths shape V <= 2 * sqrt 2 -> sv <> SOther ->
    exists traj, forecast Req_EM_T Rminus (@rk4 RF (list nat)) (generated_trend enum x ord rpow (axes c) g caches attr (pkf_advection c)) win state sv = Ok traj /\
      forall t, In t win -> is_saved win sv t -> exists r, dget Req_EM_T t traj = Some r /\
        forall i, (i < statistics_count (List.length lengths))%nat ->
          row_error (g_dx g) shape i (statistic (List.length lengths) N pi (fun r t p => u r O t none p) s i t) r <= C * (tau ^ 4 + largest (g_dx g) ^ 2).
Proof.
  intros SW CE H0 H1. destruct (Nat.eq_dec (List.length lengths) (dims c)) as [Ed|Ned].
  2:{ exists 0. intros. exfalso. apply Ned. match goal with A : advect_class _ _ _ _ _ _ _ _ _ |- _ => exact (proj1 (ad_sides _ _ _ _ _ _ _ _ _ A)) end. }
  set (n := List.length lengths) in *. assert (Nc : n = dims c) by exact Ed.
  assert (SW' : smooth_winds (dims c) lengths w V) by (rewrite <- Nc; exact SW).
  assert (CE' : carried_ensemble (dims c) lengths w T0 T1 N pi u s) by (rewrite <- Nc; exact CE).
  destruct (statistic_evolutions c lengths w V T0 T1 N pi u s SW' CE' t0 t1 H0 H1) as (U & EV & EU).
  destruct (winds_variable c lengths w V SW') as (L & VW).
  destruct (wind_bound c lengths w V SW' (fun _ k => inc k none)) as (B1 & PB1 & HB1).
  destruct (wind_bound c lengths w V SW' (fun _ k => addm none (only k 3))) as (B3 & PB3 & HB3).
  set (Lm := largest lengths). set (zeta := sumk (dims c) (fun _ => 2 * (B1 + B3 * Lm ^ 2))). set (kz := sumk (dims c) (fun _ => 2 * B3)).
  assert (Pk : 0 <= kz). { unfold kz. clear - PB3. induction (dims c) as [|m IH]; [unfold sumk; cbn; lra|]. rewrite sumk_S. lra. }
  assert (Hq : (0 < rows c)%nat) by (destruct c; vm_compute; lia).
  rewrite <- Nc in EV, VW.
  destruct (fields_step (rows c) lengths (fun k => w k none) (wz c w) t0 t1 U V L zeta kz Hq VW EV Pk) as (C & PC & HC).
  set (K := vrate (rows c) lengths t0 t1 L zeta) in *.
  exists (sqrt (INR (rows c)) * ((t1 - t0) * C * exp (Rabs K * (t1 - t0)))).
  intros shape enum x ord rpow g caches attr tau win state sv AC (W0 & W1 & W2) Hs Ht Cr Hsv.
  assert (T01 : t0 <= t1) by (apply W2; eapply nth_error_In; eauto).
  destruct (shape_ok c lengths shape _ enum ord g caches attr AC) as [Ls Hn].
  pose proof (sides_length c lengths shape _ enum ord g caches attr AC) as Ll.
  pose proof (steps_pos c lengths shape _ enum ord g caches attr AC) as Hd.
  pose proof (sides_pos c lengths shape _ enum ord g caches attr AC) as Hp.
  pose proof (dx_ok c lengths shape _ enum ord g caches attr AC) as Edx.
  assert (Lsn : List.length shape = n) by (unfold n; lia).
  set (trend := generated_trend enum x ord rpow (axes c) g caches attr (pkf_advection c)).
  set (h := largest (spacings lengths shape)) in *.
  assert (Hh : forall k, (k < n)%nat -> dxf lengths shape k <= h).
  { intros k Hk. apply (ConsistMain.spacing_bounds (axes c) lengths Ll Hp shape); auto. unfold n in Hk. lia. }
  set (W := wind_arrays n (g_dx g) (fun k => w k none)) in *.
  set (Z := slopes c lengths shape W).
  assert (Along : forall k, (k < n)%nat -> wind_along W k = sample (spacings lengths shape) (w k none)) by (intros k Hk; unfold W; rewrite arrays_along by auto; rewrite Edx; reflexivity).
  set (A := vflow (rows c) lengths shape (fun k => sample (spacings lengths shape) (w k none)) Z).
  assert (EA : vflow (rows c) lengths shape (wind_along W) (slopes c lengths shape W) = A).
  { apply vflow_ext; [|reflexivity]. intros k js Hk _. rewrite Along by lia. reflexivity. }
  assert (DX : forall k, (k < n)%nat -> 0 < dxf lengths shape k <= Lm).
  { intros k Hk. rewrite dxf_step by (unfold n in *; lia). apply step_side; auto. lia. }
  assert (SL : forall b k js, (b < n)%nat -> (k < n)%nat -> in_range shape js ->
    Rabs (slope lengths shape k (wind_along W b) js - w b (inc k none) (grid_point (spacings lengths shape) js)) <= B3 * dxf lengths shape k ^ 2).
  { intros b k js Hb Hk Hj. rewrite Along by auto.
    rewrite (slope_sample lengths shape Lsn Hn Hd k (w b none) js ltac:(lia) Hj (sw_period _ _ _ _ SW b Hb)).
    pose proof (partial_consistent n (w b) (sw_space _ _ _ _ SW b Hb) (dxf lengths shape) k 1 none B3 (grid_point (spacings lengths shape) js) Hk (proj1 (DX k Hk))
      ltac:(intros q; apply (HB3 b k q); lia)) as Q.
    rewrite inc_only in Q. eapply Rle_trans; [exact Q|]. change (INR 1) with 1. pose proof (pow2_ge_0 (dxf lengths shape k)). nra. }
  assert (ZB : forall i j js, (i < rows c)%nat -> (j < rows c)%nat -> in_range shape js -> Rabs (Z i j js) <= zeta).
  { intros i j js _ _ Hj. assert (P2 : 0 <= B3 * Lm ^ 2) by (apply Rmult_le_pos; [exact PB3|apply pow2_ge_0]).
    apply mixz_bound; [lra|]. intros b k Hb Hk. rewrite <- Nc in Hb, Hk.
    pose proof (SL b k js Hb Hk Hj) as Q. pose proof (HB1 b k (grid_point (spacings lengths shape) js) ltac:(lia) ltac:(lia)) as Q1. destruct (DX k Hk) as [D1 D2].
    assert (B3 * dxf lengths shape k ^ 2 <= B3 * Lm ^ 2) by (apply Rmult_le_compat_l; [exact PB3|apply pow_incr; lra]).
    set (y := slope lengths shape k (wind_along W b) js) in *. set (z := w b (inc k none) (grid_point (spacings lengths shape) js)) in *.
    replace y with ((y - z) + z) by ring. eapply Rle_trans; [apply Rabs_triang|]. lra. }
  assert (ZD : forall i j js, (i < rows c)%nat -> (j < rows c)%nat -> in_range shape js -> Rabs (Z i j js - wz c w i j (grid_point (spacings lengths shape) js)) <= kz * h ^ 2).
  { intros i j js _ _ Hj. unfold Z, slopes, wz. rewrite mixz_minus.
    assert (Ek : kz * h ^ 2 = sumk (dims c) (fun _ => 2 * (B3 * h ^ 2))) by (unfold kz; rewrite <- sumk_scale_r; apply sumk_ext; intros; ring).
    rewrite Ek. assert (P2 : 0 <= B3 * h ^ 2) by (apply Rmult_le_pos; [exact PB3|apply pow2_ge_0]).
    apply mixz_bound; [exact P2|]. intros b k Hb Hk. rewrite <- Nc in Hb, Hk. eapply Rle_trans; [apply (SL b k js Hb Hk Hj)|].
    apply Rmult_le_compat_l; [exact PB3|]. apply pow_incr. split; [apply Rlt_le, (DX k Hk)|apply Hh; auto]. }
  assert (Cnt : statistics_count n = rows c) by (rewrite Nc; apply rows_count). rewrite Cnt in *.
  set (ex := fun t => samples (rows c) lengths shape (fun i => U i O t none)).
  set (Pq := points (rows c :: shape)).
  destruct (forecast_keeps (@rk4 RF (list nat)) trend
    (fun t r => t0 <= t <= t1 /\ norm (dot (rows c :: shape)) (vsub (vview c shape r) (ex t)) <= sqrt Pq * ((t - t0) * (C * (tau ^ 4 + h ^ 2)) * exp (K * (t - t0)))) win state sv t0 Hsv W0) as (traj & E & H).
  - split; [lra|]. rewrite (norm_zero (dot (rows c :: shape)) (dot_inner (rows c :: shape))).
    + replace (t0 - t0) with 0 by ring. lra.
    + intros idx. unfold vsub, vadd, vscale. cbn [fadd fmul RF F]. unfold vview, ex, samples, cut. destruct (inb (rows c :: shape) idx) eqn:I; [|cbn; ring].
      apply inb_iff in I. inversion I as [|? i ? js I1 I2]; subst. rewrite Hs by auto. rewrite (EU i t0 _ I1) by lra. rewrite Edx, Nc. cbn. ring.
  - intros k t t' r Hk1 Hk2 ([Ta Tb] & HE).
    destruct (W1 k t t' Hk1 Hk2) as [S1 S2]. pose proof (W2 t' (nth_error_In _ _ Hk2)) as S3.
    destruct (vstep_view c lengths shape W enum x ord rpow g caches attr AC SRk4 t (t' - t) r) as (r' & Er & Ev).
    exists r'. split; [exact Er|]. split; [lra|]. cbn [onestep_order] in Ev. rewrite Ev, EA.
    pose proof (HC shape Z h tau t (t' - t) (vview c shape r) ltac:(unfold n in *; lia) Hn Hd Hh) as X. replace (t + (t' - t)) with t' in X by ring.
    apply X; auto; lra.
  - exists traj. split; [exact E|]. intros t Ht1 Ht2. destruct (H t Ht1 Ht2) as (r & G & [Ta Tb] & HE).
    exists r. split; [exact G|]. intros i Hi. rewrite Edx.
    apply Rle_trans with (norm (dot (rows c :: shape)) (vsub (vview c shape r) (ex t)) / sqrt (points shape)).
    { assert (Qi : statistic n N pi (fun r t p => u r O t none p) s i t = U i O t none) by (apply functional_extensionality; intros p; rewrite Nc; symmetry; apply EU; auto; lra).
      rewrite Qi. apply (row_rms (rows c) lengths shape i (fun i => U i O t none) r c); auto. }
    pose proof (points_pos shape Hn) as PP. assert (PS : 0 < sqrt (points shape)) by (apply sqrt_lt_R0; auto).
    apply (Rmult_le_reg_r (sqrt (points shape))); auto. unfold Rdiv at 1. rewrite Rmult_assoc, Rinv_l, Rmult_1_r by lra. eapply Rle_trans; [exact HE|].
    assert (Sp : sqrt Pq = sqrt (INR (rows c)) * sqrt (points shape)) by (unfold Pq; cbn [points fold_right]; apply sqrt_mult_alt, pos_INR).
    rewrite Sp. fold h.
    set (Q := tau ^ 4 + h ^ 2). assert (PQ : 0 <= Q) by (unfold Q; assert (0 <= tau ^ 4) by (apply pow_le; lra); nra).
    replace (sqrt (INR (rows c)) * ((t1 - t0) * C * exp (Rabs K * (t1 - t0))) * Q * sqrt (points shape))
      with (sqrt (INR (rows c)) * sqrt (points shape) * ((t1 - t0) * (C * Q) * exp (Rabs K * (t1 - t0)))) by ring.
    apply Rmult_le_compat_l; [apply Rmult_le_pos; apply sqrt_pos|].
    assert (0 <= C * Q) by (apply Rmult_le_pos; auto). apply Rmult_le_compat.
    + apply Rmult_le_pos; lra.
    + apply Rlt_le, exp_pos.
    + apply Rmult_le_compat_r; lra.
    + apply exp_le. apply Rle_trans with (Rabs K * (t - t0)).
      * apply Rmult_le_compat_r; [lra|apply Rle_abs].
      * apply Rmult_le_compat_l; [apply Rabs_pos|lra].
Qed.

Lemma ensemble_dynamics n lengths w V T0 T1 N pi u s : smooth_winds n lengths w V -> carried_ensemble n lengths w T0 T1 N pi u s ->
  forall t p, T0 < t < T1 ->
  (exists d, (forall k, (k < n)%nat -> derivable_pt_lim (fun y => ens_mean N pi (fun r t p => u r O t none p) t (@at_coord RF p k y)) (p k) (d k)) /\
     derivable_pt_lim (fun t => ens_mean N pi (fun r t p => u r O t none p) t p) t (- sumk n (fun k => w k none p * d k))) /\
  (exists d, (forall k, (k < n)%nat -> derivable_pt_lim (fun y => ens_variance N pi (fun r t p => u r O t none p) t (@at_coord RF p k y)) (p k) (d k)) /\
     derivable_pt_lim (fun t => ens_variance N pi (fun r t p => u r O t none p) t p) t (- sumk n (fun k => w k none p * d k))) /\
  forall a b, (a < n)%nat -> (b < n)%nat ->
  exists d, (forall k, (k < n)%nat -> derivable_pt_lim (fun y => s a b t (@at_coord RF p k y)) (p k) (d k)) /\
    derivable_pt_lim (fun t => s a b t p) t (- sumk n (fun k => w k none p * d k) + sumk n (fun k => s a k t p * w b (inc k none) p + s k b t p * w a (inc k none) p)).
Proof.
  intros SW CE t p Ht.
  assert (G : forall f, smoothf n T0 T1 f -> exists d, forall k, (k < n)%nat -> deriv (Some k) f t p (d k)).
  { intros f (U & F & E). exists (fun k => U O t (inc k none) p). intros k Hk. unfold deriv. pose proof (fa_space _ _ _ _ F O t Ht none k p Hk) as Y.
    assert (Q : (fun y : R => f t (@at_coord RF p k y)) = (fun y : R => U O t none (@at_coord RF p k y))) by (apply functional_extensionality; intros y; symmetry; apply E, Ht).
    rewrite Q. exact Y. }
  split; [|split].
  - destruct (G _ (mean_smooth n lengths w T0 T1 N pi u s CE)) as (d & Hd). exists d. split; [exact Hd|]. exact (mean_carried n lengths w T0 T1 N pi u s CE t p d Ht Hd).
  - destruct (G _ (variance_smooth n lengths w T0 T1 N pi u s CE)) as (d & Hd). exists d. split; [exact Hd|]. exact (variance_carried n lengths w T0 T1 N pi u s CE t p d Ht Hd).
  - intros a b Ha Hb. destruct (G _ (aspect_smooth n lengths w T0 T1 N pi u s CE a b Ha Hb)) as (d & Hd). exists d. split; [exact Hd|].
    exact (aspect_time n lengths w V T0 T1 N pi u s SW CE a b t p d Ha Hb Ht Hd).
Qed.
