(** Concrete forecasts in double precision, used by the examples and the refutations of C122. *)
From Coq Require Import List ZArith Bool Reals Lra Lia Arith String.
From Flocq Require Import Core.Core IEEE754.BinarySingleNaN.
From Verif Require Import PyBase Scalars FieldFacts FDReal ForecastModel SchemesModel SchemesSpec GridModel GridSpec LineSpec LineProofs LineCases
  FloatModel FloatSpec FloatProofs FloatCases FloatSchemeModel FloatSchemeSpec FloatSchemeProofs.
Import ListNotations.
Open Scope R_scope.

(** ** simple bounds *)
Lemma limit_big : 1000000 <= limit.
Proof. unfold limit. apply Rle_trans with (bpow radix2 20); [simpl; lra|apply bpow_le; lia]. Qed.
Lemma underflow_small : 0 <= underflow <= unit_roundoff.
Proof.
  unfold underflow, unit_roundoff. split; [apply bpow_ge_0|]. apply Rle_trans with (bpow radix2 (-53)); [apply bpow_le; lia|simpl; lra].
Qed.
Notation uro := unit_roundoff.
Lemma uro_small : 0 < uro <= / 1000000000000. Proof. unfold unit_roundoff. lra. Qed.

(** at most [m], known to [r] units of roundoff *)
Definition good (a : eb) (m r : R) : Prop := 0 <= mag a <= m /\ 0 <= err a <= r * uro /\ ok a.
Lemma good_weaken a m r m' r' : good a m r -> m <= m' -> r <= r' -> good a m' r'.
Proof. intros ((A1 & A2) & (A3 & A4) & A5) Hm Hr. pose proof uro_small. split; [lra|]. split; [split; [exact A3|nra]|exact A5]. Qed.
Lemma good_top a m r : good a m r -> r <= 1000 -> 0 <= top a <= m + / 1000000.
Proof. intros ((A1 & A2) & (A3 & A4) & A5) Hr. pose proof uro_small. unfold top. nra. Qed.
Lemma good_add a b m r m' r' : good a m r -> good b m' r' -> m <= 100 -> m' <= 100 -> r <= 1000 -> r' <= 1000 ->
  good (eb_add a b) (m + m') (r + r' + m + m' + 2).
Proof.
  intros Ga Gb H1 H2 H3 H4. pose proof (good_top _ _ _ Ga H3). pose proof (good_top _ _ _ Gb H4). pose proof uro_small. pose proof underflow_small. pose proof limit_big.
  destruct Ga as (A1 & A2 & A3). destruct Gb as (B1 & B2 & B3). split; [cbn [eb_add mag]; lra|]. split.
  - cbn [eb_add err]. unfold rounding. nra.
  - split; [exact A3|]. split; [exact B3|]. lra.
Qed.
Lemma good_mul a b m r m' r' : good a m r -> good b m' r' -> m <= 100 -> m' <= 100 -> r <= 1000 -> r' <= 1000 -> 0 <= r -> 0 <= r' ->
  good (eb_mul a b) (m * m') (r * (m' + 1) + m * r' + (m + 1) * (m' + 1) + 1).
Proof.
  intros Ga Gb H1 H2 H3 H4 P P'. pose proof (good_top _ _ _ Ga H3). pose proof (good_top _ _ _ Gb H4). pose proof uro_small. pose proof underflow_small. pose proof limit_big.
  destruct Ga as (A1 & A2 & A3). destruct Gb as (B1 & B2 & B3).
  assert (T : 0 <= top a * top b <= (m + 1) * (m' + 1)).
  { split; [apply Rmult_le_pos; lra|]. apply Rmult_le_compat; lra. }
  split; [cbn [eb_mul mag]; split; [apply Rmult_le_pos; lra|apply Rmult_le_compat; lra]|]. split.
  - cbn [eb_mul err]. unfold rounding.
    assert (0 <= err a * top b <= r * uro * (m' + 1)) by (split; [apply Rmult_le_pos; lra|apply Rmult_le_compat; lra]).
    assert (0 <= mag a * err b <= m * (r' * uro)) by (split; [apply Rmult_le_pos; lra|apply Rmult_le_compat; lra]).
    assert (0 <= uro * (top a * top b) <= uro * ((m + 1) * (m' + 1))) by (split; [apply Rmult_le_pos; lra|apply Rmult_le_compat_l; lra]).
    lra.
  - split; [exact A3|]. split; [exact B3|]. assert ((m + 1) * (m' + 1) <= 101 * 101) by (apply Rmult_le_compat; lra). lra.
Qed.
Lemma good_div a b m r : good a m r -> m <= 100 -> r <= 1000 -> err b = 0 -> 1 <= low b -> ok b ->
  good (eb_div a b) m (r + m + 2).
Proof.
  intros Ga H1 H3 E0 L1 Ob. pose proof (good_top _ _ _ Ga H3). pose proof uro_small. pose proof underflow_small. pose proof limit_big.
  destruct Ga as (A1 & A2 & A3).
  assert (D : forall x, 0 <= x -> 0 <= x / low b <= x).
  { intros x Hx. assert (0 < / low b <= 1).
    { split; [apply Rinv_0_lt_compat; lra|]. rewrite <- Rinv_1. apply Rinv_le; lra. }
    unfold Rdiv. split; [apply Rmult_le_pos; lra|]. rewrite <- (Rmult_1_r x) at 2. apply Rmult_le_compat_l; lra. }
  pose proof (D (mag a) ltac:(lra)). pose proof (D (err a) ltac:(lra)). pose proof (D (top a) ltac:(lra)).
  split; [cbn [eb_div mag]; lra|]. split.
  - cbn [eb_div err]. rewrite E0. unfold rounding. replace (mag a * 0 / low b ^ 2) with 0 by (unfold Rdiv; ring).
    assert (0 <= uro * (top a / low b) <= uro * (m + 1)) by (split; [apply Rmult_le_pos; lra|apply Rmult_le_compat_l; lra]).
    lra.
  - split; [exact A3|]. split; [exact Ob|]. split; lra.
Qed.
Lemma good_neg a m r : good a m r -> good (eb_neg a) m r. Proof. exact (fun H => H). Qed.
Lemma good_exact m : 0 <= m -> good (eb_exact m) m 0.
Proof. intros H. pose proof uro_small. split; [cbn; lra|]. split; [cbn; lra|exact I]. Qed.
Lemma good_int z m : (Z.abs z <= 2 ^ 53)%Z -> Rabs (IZR z) <= m -> good (eb_int z) m 0.
Proof. intros H Hm. pose proof uro_small. split; [cbn; split; [apply Rabs_pos|exact Hm]|]. split; [cbn; lra|exact H]. Qed.

(** ** the diffusion on four points: spacing 1, kappa 1/4, steps of 1, as sympy prints it:
    (-2*u + u[-1] + u[1])/dx**2*kappa *)
Definition dexp : pexp :=
  PMul (PDiv (PAdd (PAdd (PMul (PNeg (PInt 2)) (PVar 0)) (PVar 2)) (PVar 1)) (PVar 3)) (PVar 4).
Definition dp64 (k : nat) : b64 := match k with O => one | 1%nat => quarter | _ => zero end.
Definition dp (k : nat) : R := match k with O => 1 | 1%nat => / 4 | _ => 0 end.
Definition dbp (k : nat) : eb := match k with O => eb_int 1 | 1%nat => EB (/ 4) 0 (/ 4) True | _ => eb_exact 0 end.
Lemma dp_near k : near (dp64 k) (dp k) (dbp k).
Proof.
  destruct k as [|[|k]].
  - apply near_int. cbn; lia.
  - split; [apply fin_sf; vm_compute; reflexivity|]. change (Rabs (v quarter - / 4) <= 0 /\ Rabs (/ 4) <= / 4 /\ / 4 <= Rabs (v quarter) /\ / 4 <= Rabs (/ 4)). rewrite v_quarter. replace (/ 4 - / 4) with 0 by ring.
    rewrite Rabs_R0, Rabs_pos_eq by lra. lra.
  - split; [reflexivity|]. cbn. rewrite Rminus_0_r, Rabs_R0. lra.
Qed.
Lemma dexp_value a b c : peval real_ops (names3 a b c dp) dexp = / 4 * ((b - 2 * a + c) / mesh 4 4 ^ 2).
Proof. cbn. unfold mesh. replace (INR 4) with 4 by (cbn; ring). field. Qed.
Lemma good_quarter : good (EB (/ 4) 0 (/ 4) True) (/ 4) 0.
Proof. pose proof uro_small. split; [cbn; lra|]. split; [cbn; lra|exact I]. Qed.
Lemma dexp_good t : good (eb_stencil (neighbours 4) dbp dexp t (eb_exact 2)) 2 60.
Proof.
  unfold eb_stencil, dexp. cbn [peval eb_ops o_mul o_add o_div o_neg o_int nth_error neighbours List.length Nat.sub dbp].
  eapply good_weaken.
  - eapply good_mul.
    + eapply good_div.
      * eapply good_add. { eapply good_add. { eapply good_mul; [apply good_neg; apply (good_int 2 2); [cbn; lia|rewrite Rabs_pos_eq; lra]|apply (good_exact 2); lra|..]; lra. }
            { apply (good_exact 2); lra. } all: lra. }
        { apply (good_exact 2); lra. } all: lra.
      * lra.
      * lra.
      * reflexivity.
      * cbn. rewrite Rabs_pos_eq; lra.
      * cbn; lia.
    + exact good_quarter.
    + lra.
    + lra.
    + lra.
    + lra.
    + lra.
    + lra.
  - lra.
  - lra.
Qed.
Definition dbound : eb := eb_onestep SEuler (eb_stencil (neighbours 4) dbp dexp) (eb_exact 3) (eb_exact 2) (eb_step 1).
Lemma dbound_good : good dbound 4 200.
Proof.
  unfold dbound, eb_onestep, eb_euler. eapply good_weaken.
  - apply good_add; [apply (good_exact 2); lra| | | | |].
    + apply (good_mul (eb_step 1) (eb_trend (eb_stencil (neighbours 4) dbp dexp) (eb_exact 3) (eb_exact 2)) 1 2 2 60).
      * pose proof uro_small. pose proof underflow_small. pose proof limit_big. split; [cbn; lra|]. split; [cbn [eb_step err]; unfold rounding; lra|].
        cbn [eb_step ok]. lra.
      * destruct (dexp_good (eb_exact 3)) as (G1 & G2 & G3). split; [exact G1|]. split; [exact G2|]. split; [exact I|]. split; [exact I|exact G3].
      * lra.
      * lra.
      * lra.
      * lra.
      * lra.
      * lra.
    + lra.
    + lra.
    + lra.
    + lra.
  - lra.
  - lra.
Qed.

(** the window 0, 1, 2, 3 *)
Definition dwindow : list b64 := [of_Z 0; of_Z 1; of_Z 2; of_Z 3].
Lemma v_Z z : (Z.abs z <= 2 ^ 53)%Z -> v (of_Z z) = IZR z.
Proof. intros H. apply (of_Z_ok z H). Qed.
Lemma dwindow_v : map (fun z : b64 => v z) dwindow = [0; 1; 2; 3].
Proof. cbn [map dwindow]. rewrite !v_Z by (cbn; lia). reflexivity. Qed.
Lemma dwindow_runs : fruns 3 1 dwindow.
Proof.
  assert (SI : forall a b : b64, Some a = Some b -> a = b) by congruence.
  split.
  - intros t [<-|[<-|[<-|[<-|[]]]]]; (split; [apply of_Z_ok; cbn; lia|rewrite v_Z by (cbn; lia); rewrite Rabs_pos_eq; lra]).
  - intros k t t' H H'. destruct k as [|[|[|[|k]]]]; cbn [nth_error dwindow] in H, H'; try discriminate; try (destruct k; discriminate); apply SI in H, H'; rewrite <- H, <- H';
      rewrite !v_Z by (cbn; lia); lra.
  - discriminate.
Qed.

(** ** a wave of period 4: exp(- w^2 t / 4) sin(w x), w = pi/2 *)
Definition wave (k : nat) (t x : R) : R := (PI / 2) ^ k * heat (/ 4 * (PI / 2) ^ 2) k t (PI / 2 * x).
Lemma wave_solution t1 : diffusion_solution 4 (/ 4) 0 t1 wave.
Proof.
  assert (Hk : 0 <= / 4 * (PI / 2) ^ 2) by nra.
  destruct (heat_solution _ t1 Hk) as [S1 S2 S3 S4]. set (kk := / 4 * (PI / 2) ^ 2) in *. unfold wave. fold kk. split.
  - intros m k t x Hm Ht.
    pose proof (S1 (S k) k t (PI / 2 * x) ltac:(lia) Ht) as D.
    pose proof (derivable_pt_lim_scal id (PI / 2) x 1 (derivable_pt_lim_id x)) as D0.
    pose proof (derivable_pt_lim_comp (mult_real_fct (PI / 2) id) (heat kk k t) x _ _ D0 D) as D1.
    pose proof (derivable_pt_lim_scal _ ((PI / 2) ^ k) _ _ D1) as D2.
    eapply dl_eq; [|exact D2]. cbn [pow]. ring.
  - intros k t x Ht. pose proof (derivable_pt_lim_scal _ ((PI / 2) ^ k) _ _ (S2 k t (PI / 2 * x) Ht)) as D.
    eapply dl_eq; [|exact D]. unfold kk. cbn [pow]. ring.
  - intros t x Ht. replace (PI / 2 * (x + 4)) with (PI / 2 * x + 2 * PI) by field. rewrite S3 by exact Ht. reflexivity.
  - intros k. destruct (S4 k) as (B & HB). exists ((PI / 2) ^ k * B). intros t x Ht. rewrite Rabs_mult, (Rabs_pos_eq ((PI / 2) ^ k)).
    + apply Rmult_le_compat_l; [apply pow_le; pose proof PI_RGT_0; lra|apply HB; exact Ht].
    + apply pow_le. pose proof PI_RGT_0. lra.
Qed.
(** its values at the four points are integers *)
Definition dstate (i : list nat) : b64 := match i with [_; j] => of_Z (nth j [0; 1; 0; -1]%Z 0%Z) | _ => of_Z 0 end.
Lemma dstate_ok j : (j < 4)%nat -> fin (dstate [O; j]) /\ v (dstate [O; j]) = wave O 0 (INR j * mesh 4 4) /\ Rabs (v (dstate [O; j])) <= 1.
Proof.
  intros H. cbn [dstate].
  assert (Q : (Z.abs (nth j [0; 1; 0; -1] 0) <= 1)%Z) by (destruct j as [|[|[|[|j]]]]; cbn; lia).
  destruct (of_Z_ok (nth j [0; 1; 0; -1] 0)%Z ltac:(lia)) as (F & E). split; [exact F|]. rewrite E. split.
  - unfold wave, heat, mesh. replace (INR 4) with 4 by (cbn; ring). replace (4 / 4) with 1 by field.
    rewrite Rmult_0_r, exp_0. cbn [pow]. rewrite !Rmult_1_l, Rmult_1_r.
    replace (INR 0) with 0 by reflexivity. rewrite Rmult_0_l, Rplus_0_r.
    destruct j as [|[|[|[|j]]]]; [| | | |lia]; cbn [nth INR].
    + rewrite Rmult_0_r, sin_0. reflexivity.
    + rewrite Rmult_1_r, sin_PI2. reflexivity.
    + replace (PI / 2 * (1 + 1)) with PI by field. rewrite sin_PI. reflexivity.
    + replace (PI / 2 * (1 + 1 + 1)) with (3 * (PI / 2)) by field. rewrite sin_3PI2. reflexivity.
  - rewrite <- abs_IZR. apply IZR_le. exact Q.
Qed.

(** ** what the exact schemes keep and doubles do not *)
Definition tiny : b64 := bdiv (of_Z 1) (of_Z (2 ^ 100)).
Lemma v_tiny : v tiny = bpow radix2 (-100).
Proof. rewrite (v_sf tiny (SpecFloat.S754_finite false 4503599627370496 (-152)) ltac:(vm_compute; reflexivity)). unfold SF2R, F2R. simpl. lra. Qed.
Lemma v_tiny_pos : 0 < v tiny. Proof. rewrite v_tiny. apply bpow_gt_0. Qed.
Definition spike (i : list nat) : b64 := match i with [_; O] => one | [_; 2%nat] => tiny | _ => zero end.
Lemma spike_step : exists y, feuler (stencil_trend (neighbours 4) dp64 dexp) zero spike one = Ok y /\
  (forall i, line 4 i -> fin (y i)) /\ sum4 (fun i => v (y i)) = 1 + v tiny / 2.
Proof.
  eexists. split; [reflexivity|]. cbv beta. set (y := fvadd _ _).
  assert (E0 : B2SF (y [O; O]) = SpecFloat.S754_finite false 4503599627370496 (-53)) by (vm_compute; reflexivity).
  assert (E1 : B2SF (y [O; 1%nat]) = SpecFloat.S754_finite false 4503599627370496 (-54)) by (vm_compute; reflexivity).
  assert (E2 : B2SF (y [O; 2%nat]) = SpecFloat.S754_finite false 4503599627370496 (-153)) by (vm_compute; reflexivity).
  assert (E3 : B2SF (y [O; 3%nat]) = SpecFloat.S754_finite false 4503599627370496 (-54)) by (vm_compute; reflexivity).
  split.
  - intros i (j & Hj & ->). apply fin_sf. destruct j as [|[|[|[|j]]]]; [rewrite E0|rewrite E1|rewrite E2|rewrite E3|lia]; reflexivity.
  - unfold sum4. rewrite (v_sf _ _ E0), (v_sf _ _ E1), (v_sf _ _ E2), (v_sf _ _ E3), v_tiny. unfold SF2R, F2R. simpl. lra.
Qed.
Lemma spike_sum : sum4 (fun i => v (spike i)) = 1 + v tiny.
Proof. unfold sum4, spike. rewrite v_one, v_zero. ring. Qed.
Lemma exact_sum (f : R -> (list nat -> R) -> res (list nat -> R)) (t d : R) (s r : list nat -> R) :
  (forall t s, exists k, f t s = Ok k /\ forall i, line 4 i -> k i = peval real_ops (stencil_env (neighbours 4) dp s i) dexp) ->
  @euler RF (list nat) f t s d = Ok r -> sum4 r = sum4 s.
Proof.
  intros H E. destruct (H t s) as (k & Ek & Hk). unfold euler in E. rewrite Ek in E. cbn [bind] in E. injection E as <-.
  assert (K : forall j, (j < 4)%nat -> k [O; j] = / 4 * ((s [O; ((j + 1) mod 4)%nat] : R) - 2 * s [O; j] + s [O; ((j + 4 - 1) mod 4)%nat])).
  { intros j Hj. rewrite Hk by (exists j; auto). cbn [peval dexp real_ops o_mul o_add o_div o_neg o_int stencil_env neighbours nth_error List.length Nat.sub dp next prev]. field. }
  unfold sum4. cbn. rewrite !K by lia. cbn. ring.
Qed.

Definition same : pexp := PVar 0.
Lemma leapfrog_lost : exists u2 u0', fleapfrog (stencil_trend [fun i : unit => i] (fun _ => zero) same) zero [fun _ => tiny; fun _ => one] one = Ok [fun _ => one; u2] /\
  fleapfrog (stencil_trend [fun i : unit => i] (fun _ => zero) same) zero [u2; fun _ => one] (Bopp one) = Ok [fun _ => one; u0'] /\
  fin (u2 tt) /\ v (u2 tt) = 2 /\ v (u0' tt) = 0.
Proof.
  do 2 eexists. split; [reflexivity|]. split; [reflexivity|]. cbv beta.
  assert (P : forall a b : b64, B2SF a = SpecFloat.S754_finite false 4503599627370496 (-51) -> B2SF b = SpecFloat.S754_zero false ->
    fin a /\ v a = 2 /\ v b = 0).
  { intros a b Ea Eb. split; [apply fin_sf; rewrite Ea; reflexivity|]. rewrite (v_sf _ _ Ea), (v_sf _ _ Eb). unfold SF2R, F2R. simpl. lra. }
  apply P; vm_compute; reflexivity.
Qed.
