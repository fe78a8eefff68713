(** Convergence of the centred transport by winds that vary. *)
From Coq Require Import List Arith ZArith Bool Reals String Lia Lra Psatz Permutation FunctionalExtensionality.
From Verif Require Import PyBase PyBaseFacts Scalars FieldFacts FDExprModel FDExprSpec FDExprProofs FDSpec FDReal GridModel GridSpec GridProofs GridMore ConsistSpec ConsistProofs ConsistMain
  SchemesModel SchemesSpec LineConv EnergySpec EnergyProofs AdvectModel AdvectSpec AdvectTrend AdvectGrid AdvectConv WindNorm WindGrid WindSpec.
Import ListNotations.
Open Scope R_scope.

(** ** derivatives on an interval *)
Lemma lim_unique (f g : R -> R) t0 t1 t l l' : t0 < t1 -> t0 <= t <= t1 -> (forall s, t0 <= s <= t1 -> f s = g s) ->
  derivable_pt_lim f t l -> derivable_pt_lim g t l' -> l = l'.
Proof.
  intros H01 Ht E D D'. destruct (Req_dec l l') as [|N]; auto. exfalso.
  assert (P : 0 < Rabs (l - l') / 2) by (assert (0 < Rabs (l - l')) by (apply Rabs_pos_lt; lra); lra).
  destruct (D _ P) as [d1 H1]. destruct (D' _ P) as [d2 H2].
  set (k := Rmin (Rmin d1 d2 / 2) ((t1 - t0) / 2)).
  assert (Pd : 0 < Rmin d1 d2) by (apply Rmin_pos; [apply cond_pos|apply cond_pos]).
  assert (Pk : 0 < k) by (apply Rmin_pos; lra).
  assert (K1 : k <= Rmin d1 d2 / 2) by apply Rmin_l. assert (K2 : k <= (t1 - t0) / 2) by apply Rmin_r.
  pose proof (Rmin_l d1 d2) as M1. pose proof (Rmin_r d1 d2) as M2.
  assert (X : exists h, h <> 0 /\ Rabs h = k /\ t0 <= t + h <= t1).
  { destruct (Rle_dec t ((t0 + t1) / 2)) as [L|L].
    - exists k. rewrite Rabs_pos_eq by lra. lra.
    - exists (- k). rewrite Rabs_Ropp, Rabs_pos_eq by lra. lra. }
  destruct X as (h & Nh & Ah & Ih). specialize (H1 h Nh ltac:(lra)). specialize (H2 h Nh ltac:(lra)).
  rewrite (E (t + h)), (E t) in H1 by lra. set (q := (g (t + h) - g t) / h) in *.
  assert (Rabs (l - l') <= Rabs (q - l') + Rabs (q - l)).
  { replace (l - l') with ((q - l') + - (q - l)) by ring. rewrite <- (Rabs_Ropp (q - l)). apply Rabs_triang. }
  lra.
Qed.

(** ** the solution and its derivatives in time *)
Section Solution.
  Variables (n : nat) (lengths : list R) (w : nat -> point -> R) (z : point -> R) (t0 t1 : R) (u : nat -> R -> multi -> point -> R).
  Hypothesis EV : evolution n lengths (fun U p => carried_by n w U p + z p * U none p) t0 t1 u.
  Hypothesis H01 : t0 < t1.
  Lemma carried_sumk U p : carried_by n w U p = - sumk n (fun k => w k p * U (inc k none) p).
  Proof. reflexivity. Qed.
  Lemma ev_all m : forall t p, t0 <= t <= t1 -> u (S m) t none p = carried_by n w (u m t) p + z p * u m t none p.
  Proof.
    induction m as [|m IH]; intros t p Ht; [apply (ev_equation _ _ _ _ _ _ EV); auto|].
    apply (lim_unique (fun s => u (S m) s none p) (fun s => carried_by n w (u m s) p + z p * u m s none p) t0 t1 t); auto.
    - apply (ev_time _ _ _ _ _ _ EV); auto.
    - apply (derivable_pt_lim_plus (fun s => carried_by n w (u m s) p) (fun s => z p * u m s none p)).
      + rewrite carried_sumk. apply (derivable_pt_lim_opp (fun s => sumk n (fun k => w k p * u m s (inc k none) p))).
        apply (sumk_derivable n (fun k s => w k p * u m s (inc k none) p) (fun k s => w k p * u (S m) s (inc k none) p)). intros k Hk.
        apply (derivable_pt_lim_scal (fun s => u m s (inc k none) p)). apply (ev_time _ _ _ _ _ _ EV); auto.
      + apply (derivable_pt_lim_scal (fun s => u m s none p)). apply (ev_time _ _ _ _ _ _ EV); auto.
  Qed.
  Lemma ev_periodic m : forall t, t0 <= t <= t1 -> periodic lengths (u m t none).
  Proof.
    induction m as [|m IH]; intros t Ht; [apply (ev_period _ _ _ _ _ _ EV); auto|].
    intros i p L HL. apply (lim_unique (fun s => u m s none (@at_coord RF p i (p i + L)%R)) (fun s => u m s none p) t0 t1 t); auto.
    - intros s Hs. apply (IH s Hs i p L HL).
    - apply (ev_time _ _ _ _ _ _ EV); auto.
    - apply (ev_time _ _ _ _ _ _ EV); auto.
  Qed.
  (** a common bound of the first derivatives *)
  Lemma below_sum (B : nat -> R) m : (forall k, 0 <= B k) -> forall k, (k < m)%nat -> B k <= sumk m B.
  Proof.
    intros PB k Hk. unfold sumk. assert (In k (seq 0 m)) as I by (apply in_seq; lia).
    assert (G : forall l, 0 <= fold_right Rplus 0 (map B l)) by (induction l as [|a l IH]; cbn; [lra|specialize (PB a); lra]).
    induction (seq 0 m) as [|a l IH]; [destruct I|]. cbn. destruct I as [->|I]; [specialize (G l); lra|]. specialize (IH I). specialize (PB a). lra.
  Qed.
  Lemma common_bound (a : multi) M : exists B, 0 <= B /\ forall m t p, (m < M)%nat -> t0 <= t <= t1 -> Rabs (u m t a p) <= B.
  Proof.
    induction M as [|M (B & PB & HB)]; [exists 0; split; [lra|intros; lia]|].
    destruct (ev_bounded _ _ _ _ _ _ EV M a) as (C & HC). exists (Rmax B (Rabs C)). split; [apply Rle_trans with B; auto; apply Rmax_l|].
    intros m t p Hm Ht. destruct (Nat.eq_dec m M) as [->|N].
    - apply Rle_trans with (Rabs C); [|apply Rmax_r]. eapply Rle_trans; [apply HC; auto|apply Rle_abs].
    - apply Rle_trans with B; [apply HB; auto; lia|apply Rmax_l].
  Qed.
  Lemma common_bounds (f : nat -> multi) M N : exists B, 0 <= B /\ forall k m t p, (k < N)%nat -> (m < M)%nat -> t0 <= t <= t1 -> Rabs (u m t (f k) p) <= B.
  Proof.
    induction N as [|N (B & PB & HB)]; [exists 0; split; [lra|intros; lia]|].
    destruct (common_bound (f N) M) as (C & PC & HC). exists (Rmax B C). split; [apply Rle_trans with B; auto; apply Rmax_l|].
    intros k m t p Hk Hm Ht. destruct (Nat.eq_dec k N) as [->|Nk].
    - apply Rle_trans with C; [auto|apply Rmax_r].
    - apply Rle_trans with B; [apply HB; auto; lia|apply Rmax_l].
  Qed.
End Solution.

(** ** on the grid *)
Section OnGrid.
  Variables (lengths : list R) (w : nat -> point -> R) (z : point -> R) (t0 t1 : R) (u : nat -> R -> multi -> point -> R) (V L : nat -> R) (zeta kz : R).
  Notation n := (List.length lengths).
  Hypothesis VW : variable_winds n lengths w V L.
  Hypothesis EV : evolution n lengths (fun U p => carried_by n w U p + z p * U none p) t0 t1 u.
  Notation b := (zeta + / 2 * sumk n L).
  Notation kappa := (2 * sqrt 2 + (t1 - t0) * b).

  Section Shape.
    Variables (shape : list nat) (Z : list nat -> R) (hm : R).
    Hypothesis Ls : List.length shape = n.
    Hypothesis Hn : forall m, In m shape -> m <> O.
    Hypothesis Hd : forall k, (k < List.length shape)%nat -> 0 < step_of lengths shape k.
    Hypothesis Hh : forall k, (k < n)%nat -> dxf lengths shape k <= hm.
    Hypothesis HZ : forall js, in_range shape js -> Rabs (Z js) <= zeta.
    Hypothesis HZc : forall js, in_range shape js -> Rabs (Z js - z (grid_point (spacings lengths shape) js)) <= kz * hm ^ 2.
    Notation dxl := (spacings lengths shape).
    Notation W := (fun k => sample dxl (w k)).
    Lemma NE : exists js, in_range shape js.
    Proof.
      clear - Hn. exists (map (fun _ => O) shape). induction shape as [|m s IH]; constructor.
      - assert (m <> O) by (apply Hn; left; auto). lia.
      - apply IH. intros; apply Hn; right; auto.
    Qed.
    Lemma speed_grid k js : (k < List.length shape)%nat -> in_range shape js -> Rabs (W k js) <= V k.
    Proof. intros Hk _. apply (vw_speed _ _ _ _ _ VW). lia. Qed.
    Lemma shear_grid k js : (k < List.length shape)%nat -> in_range shape js -> Rabs (W k (next shape k js) - W k js) <= L k * step_of lengths shape k.
    Proof.
      intros Hk H. pose proof (Hd k Hk) as P. cbv beta.
      assert (Hk' : (k < n)%nat) by lia.
      rewrite <- wrap_next by auto. rewrite sample_wrap by (auto using addz_length, in_range_length; apply (vw_period _ _ _ _ _ VW); auto).
      change (fun i => nth i dxl 0) with (dxf lengths shape). rewrite displaced_unit by auto. unfold sample.
      set (p := grid_point dxl js). rewrite <- dxf_step in * by auto. set (h := dxf lengths shape k) in *.
      replace (w k p) with (w k (@at_coord RF p k (p k))) by (f_equal; apply functional_extensionality; intros i; unfold at_coord; destruct (Nat.eq_dec k i) as [<-|]; reflexivity).
      replace (p k + IZR 1 * h) with (p k + h) by ring.
      destruct (vw_shear _ _ _ _ _ VW) as (d & D).
      assert (D' : forall s, derivable_pt_lim (fun s => w k (@at_coord RF p k s)) s (d k (@at_coord RF p k s)) /\ Rabs (d k (@at_coord RF p k s)) <= L k).
      { intros s. destruct (D k (@at_coord RF p k s) Hk') as [D1 D2]. split; auto. rewrite at_same in D1.
        eapply derivable_pt_lim_ext; [|exact D1]. intros y. cbv beta. rewrite at_twice. reflexivity. }
      destruct (MVT_cor2 (fun s => w k (@at_coord RF p k s)) (fun s => d k (@at_coord RF p k s)) (p k) (p k + h) ltac:(lra) (fun c _ => proj1 (D' c))) as (c & Hc & _).
      cbv beta in Hc. rewrite Hc. replace (p k + h - p k) with h by ring. rewrite Rabs_mult, (Rabs_pos_eq h) by lra.
      apply Rmult_le_compat_r; [lra|]. apply D'.
    Qed.
    Lemma over_sumk f : over_axes shape f = sumk n f.
    Proof. unfold over_axes, sumk. rewrite Ls. reflexivity. Qed.
    Notation A := (flowz lengths shape W Z).
    Notation nrm := (norm (dot shape)).
    Notation ex := (fun m t => cut shape (sample dxl (u m t none))).
    Lemma shear_b : shear shape L zeta = b.
    Proof. unfold shear. rewrite over_sumk. reflexivity. Qed.
    Lemma b_nonneg : 0 <= b.
    Proof. rewrite <- shear_b. apply (shear_nonneg lengths shape Hd NE W Z L zeta shear_grid HZ). Qed.
    Lemma growth_step (dt : R) a : 0 <= dt <= t1 - t0 -> dt * courant lengths shape V <= 2 * sqrt 2 ->
      nrm (@exp_taylor RF (list nat) A dt 4 a) <= (1 + dt * (b * exp kappa)) * nrm a.
    Proof.
      intros Ht C. eapply Rle_trans; [apply (flowz_rk4 lengths shape Hd NE W Z V L zeta speed_grid shear_grid HZ dt a); [lra|exact C]|].
      apply Rmult_le_compat_r; [apply norm_pos|]. apply Rplus_le_compat_l. rewrite shear_b. pose proof b_nonneg as Pb. rewrite Rmult_assoc. apply Rmult_le_compat_l; [lra|].
      apply Rmult_le_compat_l; auto.
      assert (X : 2 * sqrt 2 + dt * b <= kappa) by (apply Rplus_le_compat_l, Rmult_le_compat_r; lra).
      destruct (Rle_lt_or_eq_dec _ _ X) as [Lt|Eq]; [left; apply exp_increasing; auto|rewrite Eq; lra].
    Qed.
    (** the operator on the values of the solution *)
    Lemma consistent B0 B3 m t js : t0 < t1 -> t0 <= t <= t1 -> in_range shape js -> (forall p, Rabs (u m t none p) <= B0) ->
      (forall k p, (k < n)%nat -> Rabs (u m t (addm none (only k 3)) p) <= B3) ->
      Rabs (A (ex m t) js - ex (S m) t js) <= (sumk n (fun k => V k / 6 * B3) + kz * B0) * hm ^ 2.
    Proof.
      intros H01 Ht H HB0 HB3. unfold flowz. rewrite !cut_in by auto. unfold transported. rewrite over_sumk.
      set (p := grid_point dxl js). unfold sample at 4. fold p. rewrite (ev_all n lengths w z t0 t1 u EV H01 m t p Ht), carried_sumk.
      assert (Es : forall k, (k < n)%nat -> W k js * slope lengths shape k (cut shape (sample dxl (u m t none))) js = w k p * @partial RF (dxf lengths shape) k 1 (u m t none) p).
      { intros k Hk. unfold sample at 1. fold p. f_equal.
        rewrite (slope_ext lengths shape k _ (sample dxl (u m t none)) js) by (auto; try lia; intros; apply cut_in; auto).
        apply slope_sample; auto; [lia|]. apply (ev_periodic n lengths w z t0 t1 u EV H01); auto. }
      rewrite (sumk_ext n _ _ Es). unfold sample. fold p.
      match goal with |- Rabs (- ?S1 + Z js * ?U - (- ?S2 + z p * ?U)) <= _ => replace (- S1 + Z js * U - (- S2 + z p * U)) with (- (S1 - S2) + (Z js - z p) * U) by ring end.
      eapply Rle_trans; [apply Rabs_triang|]. rewrite Rabs_Ropp, Rmult_plus_distr_r. apply Rplus_le_compat.
      - rewrite sumk_minus, Rmult_comm, <- sumk_scale. apply sumk_bound. intros k Hk. rewrite <- Rmult_minus_distr_l, Rabs_mult.
        assert (Pd : 0 < dxf lengths shape k) by (rewrite dxf_step by (auto; lia); apply Hd; lia).
        pose proof (partial_consistent n (u m t) (ev_space _ _ _ _ _ _ EV m t Ht) (dxf lengths shape) k 1 none B3 p Hk Pd (fun q => HB3 k q Hk)) as Q.
        rewrite inc_only in Q. change (INR 1) with 1 in Q.
        assert (PB : 0 <= B3) by (eapply Rle_trans; [apply Rabs_pos|apply (HB3 k p Hk)]).
        assert (S2 : dxf lengths shape k ^ 2 <= hm ^ 2) by (apply pow_incr; specialize (Hh k Hk); lra).
        pose proof (vw_speed _ _ _ _ _ VW k p Hk) as SV. pose proof (Rabs_pos (w k p)) as SP.
        apply Rle_trans with (V k * (1 / 6 * B3 * hm ^ 2)); [|apply Req_le; field].
        apply Rmult_le_compat; auto; [apply Rabs_pos|]. eapply Rle_trans; [exact Q|]. apply Rmult_le_compat_l; lra.
      - rewrite Rabs_mult. pose proof (HZc js H) as Q. fold p in Q.
        replace (kz * B0 * hm ^ 2) with (kz * hm ^ 2 * B0) by ring. apply Rmult_le_compat; auto; apply Rabs_pos.
    Qed.
    Lemma expansion_value t dt p js : in_range shape js ->
      expansion (fun m => ex m t) dt p js = taylor (fun m s => u m s none (grid_point dxl js)) t p (t + dt).
    Proof.
      intros H. induction p as [|p IH]; cbn [expansion taylor].
      - rewrite cut_in by auto. reflexivity.
      - rewrite <- IH. unfold vadd, vscale. cbn [fadd fmul RF F]. rewrite cut_in by auto. unfold sample. replace (t + dt - t) with dt by ring. reflexivity.
    Qed.
    Lemma local_norm B0 B3 B5 t (dt : R) : t0 < t1 -> 0 <= B0 -> 0 <= B3 -> 0 <= B5 -> 0 <= kz -> t0 <= t -> 0 <= dt -> t + dt <= t1 -> dt * courant lengths shape V <= 2 * sqrt 2 ->
      (forall m s p, (m < 4)%nat -> t0 <= s <= t1 -> Rabs (u m s none p) <= B0) ->
      (forall k m s p, (k < n)%nat -> (m < 4)%nat -> t0 <= s <= t1 -> Rabs (u m s (addm none (only k 3)) p) <= B3) ->
      (forall s p, t0 <= s <= t1 -> Rabs (u 5%nat s none p) <= B5) ->
      nrm (vsub (@exp_taylor RF (list nat) A dt 4 (ex O t)) (ex O (t + dt))) <=
      sqrt (points shape) * (dt * ((sumk n (fun k => V k / 6 * B3) + kz * B0) * total kappa (t1 - t0) 4 * hm ^ 2 + B5 * dt ^ 4)).
    Proof.
      intros H01 P0 P3 P5 Pk H1 H2 H3 C HB0 HB3 HB5.
      set (K := sumk n (fun k => V k / 6 * B3) + kz * B0).
      assert (PK : 0 <= K).
      { unfold K. apply Rplus_le_le_0_compat; [|apply Rmult_le_pos; auto]. rewrite <- over_sumk. apply over_nonneg. intros k Hk.
        pose proof (V_nonneg shape NE W V speed_grid k Hk). apply Rmult_le_pos; lra. }
      eapply Rle_trans; [apply (norm_sub_triangle (dot shape) (dot_inner shape) _ (expansion (fun m => ex m t) dt 4))|].
      assert (X1 : nrm (vsub (@exp_taylor RF (list nat) A dt 4 (ex O t)) (expansion (fun m => ex m t) dt 4)) <= dt * (sqrt (points shape) * (K * hm ^ 2)) * total kappa (t1 - t0) 4).
      { assert (Pe : 0 <= K * hm ^ 2) by (apply Rmult_le_pos; auto; nra).
        apply (step_approx (dot shape) (dot_inner shape) A (courant lengths shape V + b) dt (sqrt (points shape) * (K * hm ^ 2)) kappa (t1 - t0) (fun m => ex m t)).
        - apply flowz_linear.
        - intros a. rewrite <- shear_b. apply (flowz_norm lengths shape Hd NE W Z V L zeta speed_grid shear_grid HZ).
        - exact H2.
        - rewrite Rmult_plus_distr_l. apply Rplus_le_compat; auto. apply Rmult_le_compat_r; [apply b_nonneg|lra].
        - pose proof b_nonneg as Pb. pose proof (sqrt_pos 2). assert (0 <= (t1 - t0) * b) by (apply Rmult_le_pos; lra). lra.
        - lra.
        - apply Rmult_le_pos; auto. apply sqrt_pos.
        - intros i Hi. apply norm_of_bound; auto. intros js H.
          replace (vsub (A (ex i t)) (ex (S i) t) js) with (A (ex i t) js - ex (S i) t js) by (unfold vsub, vadd, vscale; cbn [fadd fmul RF F]; cbn; ring).
          apply consistent; auto; [lra| |]; intros; [apply HB0; auto; lra|apply HB3; auto; lra]. }
      assert (X2 : nrm (vsub (expansion (fun m => ex m t) dt 4) (ex O (t + dt))) <= sqrt (points shape) * (B5 * (dt ^ 5))).
      { apply norm_of_bound; [apply Rmult_le_pos; auto; apply pow_le; auto|]. intros js H. set (p := grid_point dxl js).
        assert (Ev : vsub (expansion (fun m => ex m t) dt 4) (ex O (t + dt)) js = - (u O (t + dt) none p - taylor (fun m s => u m s none p) t 4 (t + dt))).
        { pose proof (expansion_value t dt 4 js H) as Q. fold p in Q. rewrite <- Q. unfold vsub. set (e := expansion _ dt 4). unfold vadd, vscale. cbn [fadd fmul RF F]. rewrite cut_in by auto. unfold sample. fold p. ring. }
        rewrite Ev, Rabs_Ropp.
        pose proof (taylor_bound t (t + dt) B5 4 ltac:(lra) (fun m s => u m s none p)) as T. cbv beta in T.
        eapply Rle_trans; [apply T; [| |lra]|].
        - intros k s _ Hs. apply (ev_time _ _ _ _ _ _ EV). lra.
        - intros s Hs. apply HB5. lra.
        - replace (t + dt - t) with dt by ring. apply Rmult_le_compat_l; auto. assert (0 <= dt ^ 5) by (apply pow_le; auto).
          replace (INR (fact 5)) with 120 by (cbn; ring). lra. }
      eapply Rle_trans; [apply Rplus_le_compat; [exact X1|exact X2]|]. apply Req_le. cbn [pow]. ring.
    Qed.
  End Shape.

  (** the error of a step, with a constant that does not depend on the grid *)
  Lemma local_wind : t0 < t1 -> 0 <= kz -> exists C, 0 <= C /\ forall shape Z hm t dt, List.length shape = n -> (forall m, In m shape -> m <> O) ->
    (forall k, (k < List.length shape)%nat -> 0 < step_of lengths shape k) -> (forall k, (k < n)%nat -> dxf lengths shape k <= hm) ->
    (forall js, in_range shape js -> Rabs (Z js) <= zeta) ->
    (forall js, in_range shape js -> Rabs (Z js - z (grid_point (spacings lengths shape) js)) <= kz * hm ^ 2) ->
    t0 <= t -> 0 <= dt -> t + dt <= t1 -> dt * courant lengths shape V <= 2 * sqrt 2 ->
    norm (dot shape) (vsub (@exp_taylor RF (list nat) (flowz lengths shape (fun k => sample (spacings lengths shape) (w k)) Z) dt 4
      (cut shape (sample (spacings lengths shape) (u O t none)))) (cut shape (sample (spacings lengths shape) (u O (t + dt) none))))
    <= sqrt (points shape) * (dt * (C * (dt ^ 4 + hm ^ 2))).
  Proof.
    intros H01 Pk. destruct (common_bounds n lengths w z t0 t1 u EV (fun _ => none) 4 1) as (B0 & P0 & HB0).
    destruct (common_bounds n lengths w z t0 t1 u EV (fun k => addm none (only k 3)) 4 n) as (B3 & P3 & HB3).
    destruct (common_bounds n lengths w z t0 t1 u EV (fun _ => none) 6 1) as (B5 & P5 & HB5).
    set (K := (sumk n (fun k => V k / 6 * B3) + kz * B0) * total kappa (t1 - t0) 4).
    exists (Rabs K + B5). split; [pose proof (Rabs_pos K); lra|]. intros shape Z hm t dt Ls Hn Hd Hh HZ HZc H1 H2 H3 C.
    eapply Rle_trans; [apply (local_norm shape Z hm Ls Hn Hd Hh HZ HZc B0 B3 B5 t dt); auto|].
    - intros m s p Hm Hs. apply (HB0 O m s p); auto.
    - intros s p Hs. apply (HB5 O 5%nat s p); auto.
    - fold K. apply Rmult_le_compat_l; [apply sqrt_pos|]. apply Rmult_le_compat_l; auto.
      assert (K * hm ^ 2 <= Rabs K * hm ^ 2) by (apply Rmult_le_compat_r; [nra|apply Rle_abs]).
      assert (0 <= Rabs K * dt ^ 4) by (apply Rmult_le_pos; [apply Rabs_pos|apply pow_le; auto]).
      assert (0 <= B5 * hm ^ 2) by (apply Rmult_le_pos; auto; nra). lra.
  Qed.
End OnGrid.
