(** Consistency of the centred scheme of a second order operator with the solutions of the equation. *)
From Coq Require Import List Arith ZArith Bool Reals String Lia Lra Psatz Permutation FunctionalExtensionality.
From Verif Require Import PyBase PyBaseFacts Scalars FieldFacts FDExprModel FDExprSpec FDExprProofs FDSpec FDReal GridModel GridSpec GridProofs GridMore ConsistSpec ConsistProofs ConsistMain
  SchemesModel SchemesSpec LineConv AdvectModel AdvectSpec AdvectTrend AdvectGrid AdvectConv WindNorm WindSpec WindConv DiffuseModel DiffuseSpec DiffuseGrid DiffuseGauge.
Import ListNotations.
Open Scope R_scope.

Definition op5 (c : coefs (point -> R)) (U : multi -> point -> R) (p : point) : R :=
  c20 c p * U (inc 0 (inc 0 none)) p + c11 c p * U (inc 0 (inc 1 none)) p + c02 c p * U (inc 1 (inc 1 none)) p + c10 c p * U (inc 0 none) p + c01 c p * U (inc 1 none) p.

Section Solution.
  Variables (n : nat) (lengths : list R) (c : coefs (point -> R)) (t0 t1 : R) (u : nat -> R -> multi -> point -> R).
  Hypothesis EV : evolution n lengths (op5 c) t0 t1 u.
  Hypothesis H01 : t0 < t1.
  Lemma op5_all m : forall t p, t0 <= t <= t1 -> u (S m) t none p = op5 c (u m t) p.
  Proof.
    induction m as [|m IH]; intros t p Ht; [apply (ev_equation _ _ _ _ _ _ EV); auto|].
    apply (lim_unique (fun s => u (S m) s none p) (fun s => op5 c (u m s) p) t0 t1 t); auto.
    - apply (ev_time _ _ _ _ _ _ EV); auto.
    - unfold op5. assert (D : forall k a, derivable_pt_lim (fun s => k * u m s a p) t (k * u (S m) t a p)).
      { intros k a. apply (derivable_pt_lim_scal (fun s => u m s a p)). apply (ev_time _ _ _ _ _ _ EV); auto. }
      pose proof (D (c20 c p) (inc 0 (inc 0 none))) as D1. pose proof (D (c11 c p) (inc 0 (inc 1 none))) as D2. pose proof (D (c02 c p) (inc 1 (inc 1 none))) as D3.
      pose proof (D (c10 c p) (inc 0 none)) as D4. pose proof (D (c01 c p) (inc 1 none)) as D5.
      pose proof (derivable_pt_lim_plus _ _ _ _ _ (derivable_pt_lim_plus _ _ _ _ _ (derivable_pt_lim_plus _ _ _ _ _ (derivable_pt_lim_plus _ _ _ _ _ D1 D2) D3) D4) D5) as X.
      exact X.
  Qed.
  Lemma op5_periodic m : forall t, t0 <= t <= t1 -> periodic lengths (u m t none).
  Proof.
    induction m as [|m IH]; intros t Ht; [apply (ev_period _ _ _ _ _ _ EV); auto|].
    intros i p L HL. apply (lim_unique (fun s => u m s none (@at_coord RF p i (p i + L)%R)) (fun s => u m s none p) t0 t1 t); auto.
    - intros s Hs. apply (IH s Hs i p L HL).
    - apply (ev_time _ _ _ _ _ _ EV); auto.
    - apply (ev_time _ _ _ _ _ _ EV); auto.
  Qed.
  Lemma op5_bound (a : multi) M : exists B, 0 <= B /\ forall m t p, (m < M)%nat -> t0 <= t <= t1 -> Rabs (u m t a p) <= B.
  Proof.
    clear H01. induction M as [|M (B & PB & HB)]; [exists 0; split; [lra|intros; lia]|].
    destruct (ev_bounded _ _ _ _ _ _ EV M a) as (C & HC). exists (Rmax B (Rabs C)). split; [apply Rle_trans with B; auto; apply Rmax_l|].
    intros m t p Hm Ht. destruct (Nat.eq_dec m M) as [->|N].
    - apply Rle_trans with (Rabs C); [|apply Rmax_r]. eapply Rle_trans; [apply HC; auto|apply Rle_abs].
    - apply Rle_trans with B; [apply HB; auto; lia|apply Rmax_l].
  Qed.
  Lemma op5_bounds (l : list multi) M : exists B, 0 <= B /\ forall a m t p, In a l -> (m < M)%nat -> t0 <= t <= t1 -> Rabs (u m t a p) <= B.
  Proof.
    clear H01. induction l as [|a l (B & PB & HB)]; [exists 0; split; [lra|intros ? ? ? ? []]|].
    destruct (op5_bound a M) as (C & PC & HC). exists (Rmax B C). split; [apply Rle_trans with B; auto; apply Rmax_l|].
    intros b m t p [<-|Hb] Hm Ht.
    - apply Rle_trans with C; [auto|apply Rmax_r].
    - apply Rle_trans with B; [auto|apply Rmax_l].
  Qed.
End Solution.

(** ** differences of smooth functions *)
Definition needed : list multi :=
  [inc 0 none; inc 1 none; inc 0 (inc 0 none); inc 0 (inc 1 none); inc 1 (inc 1 none);
   addm none (only 0 3); addm none (only 1 3); addm none (only 0 4); addm none (only 1 4);
   addm (inc 0 none) (only 1 3); addm (inc 1 none) (only 0 3)].
Section OnGrid.
  Variables (lengths : list R) (shape : list nat) (hm : R).
  Hypothesis Ll : List.length lengths = 2%nat.
  Hypothesis Ls : List.length shape = 2%nat.
  Hypothesis Hn : forall m, In m shape -> m <> O.
  Hypothesis Hd : forall k, (k < List.length shape)%nat -> 0 < step_of lengths shape k.
  Hypothesis Hh : forall k, (k < 2)%nat -> dxf lengths shape k <= hm.
  Notation dxl := (spacings lengths shape).
  Notation slope := (slope lengths shape).
  Notation curve := (curve lengths shape).
  Lemma dx_pos k : (k < 2)%nat -> 0 < dxf lengths shape k.
  Proof. intros Hk. rewrite dxf_step by lia. apply Hd. lia. Qed.
  Lemma slope_of k (f : point -> R) js : (k < 2)%nat -> in_range shape js -> periodic lengths f ->
    slope k (sample dxl f) js = @partial RF (dxf lengths shape) k 1 f (grid_point dxl js).
  Proof. intros Hk H P. apply slope_sample; auto; lia. Qed.
  Lemma curve_of k (f : point -> R) js : (k < 2)%nat -> in_range shape js -> periodic lengths f ->
    curve k (sample dxl f) js = @partial RF (dxf lengths shape) k 2 f (grid_point dxl js).
  Proof.
    intros Hk H P. assert (Lj := in_range_length _ _ H). pose proof (dx_pos k Hk) as Pk.
    unfold DiffuseSpec.curve. rewrite <- wrap_next, <- wrap_prev by (auto; lia). rewrite !sample_wrap by (auto using addz_length; lia).
    change (fun i => nth i dxl 0) with (dxf lengths shape). rewrite !displaced_unit by lia. rewrite <- dxf_step by lia.
    rewrite partial_apply. rewrite central_2 by lra. unfold sample. set (q := grid_point dxl js).
    replace (q k + IZR 1 * dxf lengths shape k) with (q k + dxf lengths shape k) by ring. replace (q k + IZR (-1) * dxf lengths shape k) with (q k - dxf lengths shape k) by ring.
    unfold dd. replace (@at_coord RF q k (q k)) with q; [reflexivity|].
    apply functional_extensionality. intros i. unfold at_coord. destruct (Nat.eq_dec k i) as [<-|]; reflexivity.
  Qed.
  Lemma cross_of (f : point -> R) js : in_range shape js -> periodic lengths f ->
    slope 0 (slope 1 (sample dxl f)) js = @partial RF (dxf lengths shape) 0 1 (@partial RF (dxf lengths shape) 1 1 f) (grid_point dxl js).
  Proof.
    intros H P. rewrite (slope_ext lengths shape 0 _ (sample dxl (@partial RF (dxf lengths shape) 1 1 f)) js) by (auto; try lia; intros js' H'; apply slope_of; auto).
    apply slope_of; auto. apply partial_periodic; auto; lia.
  Qed.
  Variables (W : multi -> point -> R) (B : R).
  Hypothesis DW : derivatives_of 2 W.
  Hypothesis HB : forall a p, In a needed -> Rabs (W a p) <= B.
  Lemma B_pos : 0 <= B.
  Proof. eapply Rle_trans; [apply Rabs_pos|]. apply (HB (inc 0 none) (fun _ => 0)). left. reflexivity. Qed.
  Lemma sq_le k : (k < 2)%nat -> dxf lengths shape k ^ 2 <= hm ^ 2.
  Proof. intros Hk. apply pow_incr. pose proof (dx_pos k Hk). specialize (Hh k Hk). lra. Qed.
  Lemma partial_error k o a p : (k < 2)%nat -> (forall q, Rabs (W (addm a (only k (o + 2))) q) <= B) ->
    Rabs (@partial RF (dxf lengths shape) k o (W a) p - W (addm a (only k o)) p) <= INR o / 6 * B * hm ^ 2.
  Proof.
    intros Hk Hq. pose proof (partial_consistent 2 W DW (dxf lengths shape) k o a B p Hk (dx_pos k Hk) Hq) as X.
    eapply Rle_trans; [exact X|]. apply Rmult_le_compat_l; [|apply sq_le; auto]. apply Rmult_le_pos; [|apply B_pos]. pose proof (pos_INR o). lra.
  Qed.
  Lemma first_error k p : (k < 2)%nat -> Rabs (@partial RF (dxf lengths shape) k 1 (W none) p - W (inc k none) p) <= B * hm ^ 2.
  Proof.
    intros Hk. rewrite <- (inc_only none k). eapply Rle_trans; [apply partial_error; auto|].
    - intros q. apply HB. destruct k as [|[|k]]; [| |lia]; cbn [Nat.add]; unfold needed; cbn; tauto.
    - cbn [INR]. pose proof B_pos. assert (0 <= hm ^ 2) by apply pow2_ge_0. assert (0 <= B * hm ^ 2) by (apply Rmult_le_pos; auto). lra.
  Qed.
  Lemma second_error k p : (k < 2)%nat -> Rabs (@partial RF (dxf lengths shape) k 2 (W none) p - W (inc k (inc k none)) p) <= B * hm ^ 2.
  Proof.
    intros Hk. replace (inc k (inc k none)) with (addm none (only k 2)).
    2:{ rewrite addm_only_S, inc_only. reflexivity. }
    eapply Rle_trans; [apply partial_error; auto|].
    - intros q. apply HB. destruct k as [|[|k]]; [| |lia]; cbn [Nat.add]; unfold needed; cbn; tauto.
    - cbn [INR]. pose proof B_pos. assert (0 <= hm ^ 2) by apply pow2_ge_0. assert (0 <= B * hm ^ 2) by (apply Rmult_le_pos; auto). lra.
  Qed.
  Lemma mixed_error p : Rabs (@partial RF (dxf lengths shape) 0 1 (@partial RF (dxf lengths shape) 1 1 (W none)) p - W (inc 0 (inc 1 none)) p) <= B * hm ^ 2.
  Proof.
    pose proof B_pos as PB. assert (Ph : 0 <= hm ^ 2) by apply pow2_ge_0. assert (PBh : 0 <= B * hm ^ 2) by (apply Rmult_le_pos; auto).
    set (P0 := @partial RF (dxf lengths shape) 0 1). set (P1 := @partial RF (dxf lengths shape) 1 1).
    assert (DE : derivatives_of 2 (fun a q => P1 (W a) q - W (inc 1 a) q)).
    { apply minus_family; [apply partial_family; auto|]. intros a i q Hi. pose proof (DW (inc 1 a) i q Hi) as X.
      replace (inc 1 (inc i a)) with (inc i (inc 1 a)); [exact X|]. rewrite <- !inc_only, <- !addm_assoc. f_equal. apply addm_comm. }
    assert (E0 : P0 (P1 (W none)) p = P0 (fun q => P1 (W none) q - W (inc 1 none) q) p + P0 (W (inc 1 none)) p).
    { unfold P0. apply partial_sub. }
    rewrite E0.
    assert (X1 : Rabs (P0 (fun q => P1 (W none) q - W (inc 1 none) q) p) <= 1 / 6 * B * hm ^ 2).
    { apply (partial_bounded 2 (fun a q => P1 (W a) q - W (inc 1 a) q) DE (dxf lengths shape) 0 1 none (1 / 6 * B * hm ^ 2) p); [lia|apply dx_pos; lia|].
      intros q. rewrite (inc_only none 0). rewrite <- (inc_only (inc 0 none) 1). eapply Rle_trans; [apply (partial_error 1 1); [lia|]|cbn [INR]; lra].
      intros q'. apply HB. cbn [Nat.add]. unfold needed. cbn; tauto. }
    assert (X2 : Rabs (P0 (W (inc 1 none)) p - W (inc 0 (inc 1 none)) p) <= 1 / 6 * B * hm ^ 2).
    { rewrite <- (inc_only (inc 1 none) 0). eapply Rle_trans; [apply (partial_error 0 1); [lia|]|cbn [INR]; lra].
      intros q'. apply HB. cbn [Nat.add]. unfold needed. cbn; tauto. }
    unfold Rminus at 1. rewrite Rplus_assoc. eapply Rle_trans; [apply Rabs_triang|]. unfold Rminus in X2. lra.
  Qed.
  (** the scheme with coefficients close to those of the operator *)
  Variables (c : coefs (list nat -> R)) (C : coefs (point -> R)) (V kz : R).
  Hypothesis PW : periodic lengths (W none).
  Hypothesis CV : forall p, Rabs (c20 C p) <= V /\ Rabs (c11 C p) <= V /\ Rabs (c02 C p) <= V /\ Rabs (c10 C p) <= V /\ Rabs (c01 C p) <= V.
  Hypothesis CZ : forall js, in_range shape js -> let p := grid_point dxl js in
    Rabs (c20 c js - c20 C p) <= kz /\ Rabs (c11 c js - c11 C p) <= kz /\ Rabs (c02 c js - c02 C p) <= kz /\ Rabs (c10 c js - c10 C p) <= kz /\ Rabs (c01 c js - c01 C p) <= kz.
  Lemma term_error x X y Y e : Rabs X <= V -> Rabs (x - X) <= kz -> Rabs (y - Y) <= e -> Rabs Y <= B -> Rabs (x * y - X * Y) <= (V + kz) * e + kz * B.
  Proof.
    intros H1 H2 H3 H4. replace (x * y - X * Y) with (x * (y - Y) + (x - X) * Y) by ring.
    eapply Rle_trans; [apply Rabs_triang|]. rewrite !Rabs_mult. apply Rplus_le_compat; apply Rmult_le_compat; auto using Rabs_pos.
    replace x with (X + (x - X)) by ring. eapply Rle_trans; [apply Rabs_triang|]. lra.
  Qed.
  Lemma scheme_error js : in_range shape js ->
    Rabs (spread lengths shape c (cut shape (sample dxl (W none))) js - op5 C W (grid_point dxl js)) <= 5 * ((V + kz) * (B * hm ^ 2) + kz * B).
  Proof.
    intros H. set (p := grid_point dxl js). unfold spread. rewrite cut_in by auto.
    rewrite (value5_ext lengths shape Ls c _ (sample dxl (W none)) js) by (auto; intros; apply cut_in; auto). unfold value5, op5.
    rewrite !curve_of, !slope_of, cross_of by (auto; lia). fold p. destruct (CV p) as (V1 & V2 & V3 & V4 & V5).
    specialize (CZ js H). cbv zeta in CZ. fold p in CZ. destruct CZ as (Z1 & Z2 & Z3 & Z4 & Z5).
    assert (N : forall a, In a needed -> Rabs (W a p) <= B) by (intros; apply HB; auto).
    pose proof (term_error _ _ _ _ _ V1 Z1 (second_error 0 p ltac:(lia)) (N (inc 0 (inc 0 none)) ltac:(unfold needed; cbn; tauto))) as T1.
    pose proof (term_error _ _ _ _ _ V2 Z2 (mixed_error p) (N (inc 0 (inc 1 none)) ltac:(unfold needed; cbn; tauto))) as T2.
    pose proof (term_error _ _ _ _ _ V3 Z3 (second_error 1 p ltac:(lia)) (N (inc 1 (inc 1 none)) ltac:(unfold needed; cbn; tauto))) as T3.
    pose proof (term_error _ _ _ _ _ V4 Z4 (first_error 0 p ltac:(lia)) (N (inc 0 none) ltac:(unfold needed; cbn; tauto))) as T4.
    pose proof (term_error _ _ _ _ _ V5 Z5 (first_error 1 p ltac:(lia)) (N (inc 1 none) ltac:(unfold needed; cbn; tauto))) as T5.
    match goal with |- Rabs (?a1 + ?a2 + ?a3 + ?a4 + ?a5 - (?b1 + ?b2 + ?b3 + ?b4 + ?b5)) <= _ =>
      replace (a1 + a2 + a3 + a4 + a5 - (b1 + b2 + b3 + b4 + b5)) with ((a1 - b1) + ((a2 - b2) + ((a3 - b3) + ((a4 - b4) + (a5 - b5))))) by ring end.
    eapply Rle_trans; [apply Rabs_triang|]. replace (5 * ((V + kz) * (B * hm ^ 2) + kz * B)) with (((V + kz) * (B * hm ^ 2) + kz * B) + 4 * ((V + kz) * (B * hm ^ 2) + kz * B)) by ring. apply Rplus_le_compat; auto.
    eapply Rle_trans; [apply Rabs_triang|]. replace (4 * ((V + kz) * (B * hm ^ 2) + kz * B)) with (((V + kz) * (B * hm ^ 2) + kz * B) + 3 * ((V + kz) * (B * hm ^ 2) + kz * B)) by ring. apply Rplus_le_compat; auto.
    eapply Rle_trans; [apply Rabs_triang|]. replace (3 * ((V + kz) * (B * hm ^ 2) + kz * B)) with (((V + kz) * (B * hm ^ 2) + kz * B) + 2 * ((V + kz) * (B * hm ^ 2) + kz * B)) by ring. apply Rplus_le_compat; auto.
    eapply Rle_trans; [apply Rabs_triang|]. lra.
  Qed.
End OnGrid.

Lemma taylor_zero {I} (f : arr RF I -> arr RF I) p v : @exp_taylor RF I f 0%R p v = v.
Proof.
  induction p as [|p IH]; [reflexivity|]. cbn [exp_taylor]. rewrite IH, coefficient. apply functional_extensionality. intros i. unfold vadd, vscale. cbn [fadd fmul RF F].
  rewrite pow_i by lia. unfold Rdiv. match goal with |- @eq _ ?a ?b => change (@eq R a b) end. ring.
Qed.

(** ** the error of a step *)
Section Local.
  Variables (lengths : list R) (C : coefs (point -> R)) (t0 t1 : R) (u : nat -> R -> multi -> point -> R) (V kz H kap : R).
  Hypothesis Ll : List.length lengths = 2%nat.
  Hypothesis EV : evolution 2 lengths (op5 C) t0 t1 u.
  Hypothesis CV : forall p, Rabs (c20 C p) <= V /\ Rabs (c11 C p) <= V /\ Rabs (c02 C p) <= V /\ Rabs (c10 C p) <= V /\ Rabs (c01 C p) <= V.
  Hypothesis Pkz : 0 <= kz.
  (** what is used of a measure of the arrays *)
  Definition measures (shape : list nat) (G : arr RF (list nat) -> R -> Prop) : Prop :=
    gauge G /\ forall a e, 0 <= e -> (forall js, in_range shape js -> Rabs (a js) <= e) -> G a e.
  Definition close (shape : list nat) (hm : R) (c : coefs (list nat -> R)) : Prop :=
    forall js, in_range shape js -> let p := grid_point (spacings lengths shape) js in
      Rabs (c20 c js - c20 C p) <= kz * hm ^ 2 /\ Rabs (c11 c js - c11 C p) <= kz * hm ^ 2 /\ Rabs (c02 c js - c02 C p) <= kz * hm ^ 2 /\
      Rabs (c10 c js - c10 C p) <= kz * hm ^ 2 /\ Rabs (c01 c js - c01 C p) <= kz * hm ^ 2.
  (** a step that does not increase the measure *)
  Definition steady (G : arr RF (list nat) -> R -> Prop) (f : arr RF (list nat) -> arr RF (list nat)) (dt : R) s : Prop :=
    (forall a y, G a y -> G (@exp_taylor RF (list nat) f dt (onestep_order s) a) y) /\
    (forall a y, G a y -> G (@vscale RF (list nat) dt (f a)) (kap * y)).
  Lemma V_pos : 0 <= V.
  Proof. eapply Rle_trans; [apply Rabs_pos|]. apply (CV (fun _ => 0)). Qed.
  Lemma error5 s : exists Q, 0 <= Q /\ forall shape hm c G (t dt : R) v x, List.length shape = 2%nat -> (forall m, In m shape -> m <> O) ->
    (forall k, (k < List.length shape)%nat -> 0 < step_of lengths shape k) -> (forall k, (k < 2)%nat -> dxf lengths shape k <= hm) -> hm <= H ->
    close shape hm c -> measures shape G -> steady G (spread lengths shape c) dt s ->
    t0 <= t -> 0 <= dt -> t + dt <= t1 ->
    G (vsub v (cut shape (sample (spacings lengths shape) (u O t none)))) x ->
    G (vsub (@exp_taylor RF (list nat) (spread lengths shape c) dt (onestep_order s) v) (cut shape (sample (spacings lengths shape) (u O (t + dt) none))))
      (x + dt * (Q * (dt ^ onestep_order s + hm ^ 2))).
  Proof.
    destruct (Rlt_dec t0 t1) as [H01|N01].
    2:{ exists 0. split; [lra|]. intros shape hm c G t dt v x _ _ _ _ _ _ [GG _] _ T1 T2 T3 Hv. assert (Ed : dt = 0) by lra. rewrite Ed.
        rewrite taylor_zero. replace (t + 0) with t by ring. apply (g_le _ GG _ x); [exact Hv|lra]. }
    set (o := onestep_order s).
    destruct (op5_bounds 2 lengths C t0 t1 u EV needed o) as (B & PB & HB). destruct (op5_bound 2 lengths C t0 t1 u EV none (S (S o))) as (B5 & PB5 & HB5).
    set (K := 5 * ((V + kz * H ^ 2) * B + kz * B)). set (M := Rabs (K * total kap (t1 - t0) o)). exists (M + B5).
    assert (PM : 0 <= M) by apply Rabs_pos. split; [lra|].
    intros shape hm c G t dt v x Ls Hn Hd Hh Hm CZ [GG GB] [HS HK] T1 T2 T3 Hv.
    set (dxl := spacings lengths shape) in *. set (ex := fun m t => cut shape (sample dxl (u m t none))).
    assert (P0 : 0 < hm). { eapply Rlt_le_trans; [|apply (Hh 0%nat); lia]. rewrite dxf_step by lia. apply Hd. lia. }
    assert (Pm : 0 <= hm ^ 2) by apply pow2_ge_0. assert (Hm2 : hm ^ 2 <= H ^ 2) by (apply pow_incr; lra). pose proof V_pos as PV.
    assert (PK : 0 <= K). { unfold K. assert (0 <= kz * H ^ 2) by (apply Rmult_le_pos; auto; apply pow2_ge_0). assert (0 <= (V + kz * H ^ 2) * B) by (apply Rmult_le_pos; lra). assert (0 <= kz * B) by (apply Rmult_le_pos; auto). lra. }
    assert (PKm : 0 <= K * hm ^ 2) by (apply Rmult_le_pos; auto).
    apply (g_le _ GG _ (x + (dt * (K * hm ^ 2) * total kap (t1 - t0) o + B5 * dt ^ S o))).
    - apply (gauge_error (spread lengths shape c) dt (spread_linear lengths shape c) G GG kap HK (K * hm ^ 2) (t1 - t0) (fun m => ex m t) T2 ltac:(lra) PKm s v (ex O (t + dt)) x (B5 * dt ^ S o) HS).
      + intros i Hi. apply GB; [exact PKm|]. intros js Hj.
        assert (Ev : vsub (spread lengths shape c (ex i t)) (ex (S i) t) js = spread lengths shape c (ex i t) js - op5 C (u i t) (grid_point dxl js)).
        { unfold vsub. set (w := spread lengths shape c (ex i t)). unfold vadd, vscale. cbn [fadd fmul RF F]. unfold ex. rewrite cut_in by auto. unfold sample.
          rewrite (op5_all 2 lengths C t0 t1 u EV H01 i t) by lra. ring. }
        rewrite Ev. eapply Rle_trans.
        * apply (scheme_error lengths shape hm Ll Ls Hn Hd Hh (u i t) B (ev_space _ _ _ _ _ _ EV i t ltac:(lra))) with (C := C) (V := V) (kz := kz * hm ^ 2); auto.
          -- intros a p Ha. apply HB; auto. lra.
          -- apply (op5_periodic 2 lengths C t0 t1 u EV H01). lra.
        * unfold K. assert (0 <= kz * hm ^ 2) by (apply Rmult_le_pos; auto). assert (kz * hm ^ 2 <= kz * H ^ 2) by (apply Rmult_le_compat_l; auto).
          assert ((V + kz * hm ^ 2) * (B * hm ^ 2) <= (V + kz * H ^ 2) * (B * hm ^ 2)) by (apply Rmult_le_compat_r; [apply Rmult_le_pos; auto|lra]).
          replace (5 * ((V + kz * H ^ 2) * B + kz * B) * hm ^ 2) with (5 * ((V + kz * H ^ 2) * (B * hm ^ 2) + kz * hm ^ 2 * B)) by ring. lra.
      + apply GB; [apply Rmult_le_pos; auto; apply pow_le; auto|]. intros js Hj. set (p := grid_point dxl js).
        assert (Ev : vsub (expansion (fun m => ex m t) dt o) (ex O (t + dt)) js = - (u O (t + dt) none p - taylor (fun m s => u m s none p) t o (t + dt))).
        { assert (Q : forall q, expansion (fun m => ex m t) dt q js = taylor (fun m s => u m s none p) t q (t + dt)).
          { induction q as [|q IH]; cbn [expansion taylor].
            - unfold ex. rewrite cut_in by auto. reflexivity.
            - rewrite <- IH. unfold vadd, vscale. cbn [fadd fmul RF F]. unfold ex at 2. rewrite cut_in by auto. unfold sample. fold p. replace (t + dt - t) with dt by ring. reflexivity. }
          rewrite <- Q. unfold vsub. set (e := expansion _ dt o). unfold vadd, vscale. cbn [fadd fmul RF F]. unfold ex. rewrite cut_in by auto. unfold sample. fold p. ring. }
        fold o. rewrite Ev, Rabs_Ropp.
        pose proof (taylor_bound t (t + dt) B5 o ltac:(lra) (fun m s => u m s none p)) as T. cbv beta in T.
        eapply Rle_trans; [apply T; [| |lra]|].
        * intros k r _ Hr. apply (ev_time _ _ _ _ _ _ EV). lra.
        * intros r Hr. apply HB5; [lia|lra].
        * replace (t + dt - t) with dt by ring. apply Rmult_le_compat_l; auto. assert (0 <= dt ^ S o) by (apply pow_le; auto).
          assert (F : 1 <= INR (fact (S o))) by (apply (le_INR 1); pose proof (lt_O_fact (S o)); lia).
          apply (Rmult_le_reg_r (INR (fact (S o)))); [lra|]. unfold Rdiv. rewrite Rmult_assoc, Rinv_l, Rmult_1_r by lra.
          replace (dt ^ S o) with (dt ^ S o * 1) at 1 by ring. apply Rmult_le_compat_l; lra.
      + exact Hv.
    - apply Rplus_le_compat_l. cbn [pow].
      assert (Po : 0 <= dt ^ o) by (apply pow_le; auto).
      replace (dt * (K * hm ^ 2) * total kap (t1 - t0) o) with (dt * (hm ^ 2 * (K * total kap (t1 - t0) o))) by ring.
      apply Rle_trans with (dt * (hm ^ 2 * (K * total kap (t1 - t0) o) + B5 * dt ^ o)); [apply Req_le; cbn [pow]; ring|]. apply Rmult_le_compat_l; auto.
      assert (hm ^ 2 * (K * total kap (t1 - t0) o) <= hm ^ 2 * M) by (apply Rmult_le_compat_l; auto; apply Rle_abs).
      assert (0 <= M * dt ^ o) by (apply Rmult_le_pos; auto). assert (0 <= B5 * hm ^ 2) by (apply Rmult_le_pos; auto). cbn [pow] in *. lra.
  Qed.
End Local.
