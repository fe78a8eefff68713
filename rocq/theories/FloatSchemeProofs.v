(** Proofs of C122: the running bounds are correct. *)
From Coq Require Import List ZArith Bool Reals Lra Lia Arith.
From Flocq Require Import Core.Core IEEE754.BinarySingleNaN.
From Verif Require Import PyBase Scalars FieldFacts FDReal ForecastModel SchemesModel SchemesSpec FloatModel FloatSpec FloatProofs FloatSchemeModel FloatSchemeSpec.
Import ListNotations.
Open Scope R_scope.

Lemma uu_eq : unit_roundoff = uu. Proof. reflexivity. Qed.
Lemma eta_eq : underflow = eta. Proof. reflexivity. Qed.
Lemma big_eq : limit = big. Proof. reflexivity. Qed.
Lemma uu_pos : 0 < unit_roundoff. Proof. unfold unit_roundoff. lra. Qed.
Lemma underflow_pos : 0 < underflow. Proof. apply bpow_gt_0. Qed.

Lemma rounding_le x m : Rabs x <= m -> Rabs (rnd x - x) <= rounding m.
Proof.
  intros H. eapply Rle_trans; [apply rnd_err|]. unfold rounding. rewrite uu_eq, eta_eq.
  apply Rplus_le_compat_r. apply Rmult_le_compat_l; [|exact H]. rewrite <- uu_eq. apply Rlt_le, uu_pos.
Qed.

Lemma near_top xh x b : near xh x b -> Rabs (v xh) <= top b /\ 0 <= err b /\ 0 <= mag b.
Proof.
  intros (_ & E & M & _ & _). pose proof (Rabs_pos (v xh - x)). pose proof (Rabs_pos x). unfold top.
  split; [|split; lra]. replace (v xh) with (x + (v xh - x)) by ring.
  eapply Rle_trans; [apply Rabs_triang|]. lra.
Qed.

(** a rounded operation *)
Lemma near_round yh x z m e b : fin yh -> v yh = rnd z -> Rabs z <= m -> Rabs (z - x) <= e -> Rabs x <= mag b ->
  err b = e + rounding m -> low b = 0 -> near yh x b.
Proof.
  intros F E Hz Hx Hm He Hl. split; [exact F|]. split; [|split; [exact Hm|]].
  - rewrite E, He. replace (rnd z - x) with ((z - x) + (rnd z - z)) by ring.
    eapply Rle_trans; [apply Rabs_triang|]. apply Rplus_le_compat; [exact Hx|]. apply rounding_le; exact Hz.
  - rewrite Hl. split; apply Rabs_pos.
Qed.

Lemma near_add xh x a yh y b : near xh x a -> near yh y b -> top a + top b <= limit -> near (badd xh yh) (x + y) (eb_add a b).
Proof.
  intros Na Nb HL. pose proof (near_top _ _ _ Na) as (Ta & _ & _). pose proof (near_top _ _ _ Nb) as (Tb & _ & _).
  destruct Na as (Fa & Ea & Ma & _). destruct Nb as (Fb & Eb & Mb & _).
  assert (Z : Rabs (v xh + v yh) <= top a + top b) by (eapply Rle_trans; [apply Rabs_triang|]; lra).
  destruct (badd_ok xh yh Fa Fb) as (F & V); [rewrite <- big_eq; lra|].
  apply (near_round _ _ (v xh + v yh) (top a + top b) (err a + err b)); auto.
  - replace (v xh + v yh - (x + y)) with ((v xh - x) + (v yh - y)) by ring. eapply Rle_trans; [apply Rabs_triang|]. lra.
  - cbn [mag eb_add]. eapply Rle_trans; [apply Rabs_triang|]. lra.
Qed.

Lemma near_sub xh x a yh y b : near xh x a -> near yh y b -> top a + top b <= limit -> near (bsub xh yh) (x - y) (eb_add a b).
Proof.
  intros Na Nb HL. pose proof (near_top _ _ _ Na) as (Ta & _ & _). pose proof (near_top _ _ _ Nb) as (Tb & _ & _).
  destruct Na as (Fa & Ea & Ma & _). destruct Nb as (Fb & Eb & Mb & _).
  assert (Z : Rabs (v xh - v yh) <= top a + top b).
  { unfold Rminus. eapply Rle_trans; [apply Rabs_triang|]. rewrite Rabs_Ropp. lra. }
  destruct (bsub_ok xh yh Fa Fb) as (F & V); [rewrite <- big_eq; lra|].
  apply (near_round _ _ (v xh - v yh) (top a + top b) (err a + err b)); auto.
  - replace (v xh - v yh - (x - y)) with ((v xh - x) + - (v yh - y)) by ring. eapply Rle_trans; [apply Rabs_triang|].
    rewrite Rabs_Ropp. lra.
  - cbn [mag eb_add]. unfold Rminus. eapply Rle_trans; [apply Rabs_triang|]. rewrite Rabs_Ropp. lra.
Qed.

Lemma near_mul xh x a yh y b : near xh x a -> near yh y b -> top a * top b <= limit -> near (bmul xh yh) (x * y) (eb_mul a b).
Proof.
  intros Na Nb HL. pose proof (near_top _ _ _ Na) as (Ta & E1 & M1). pose proof (near_top _ _ _ Nb) as (Tb & E2 & M2).
  destruct Na as (Fa & Ea & Ma & _). destruct Nb as (Fb & Eb & Mb & _).
  assert (Z : Rabs (v xh * v yh) <= top a * top b) by (rewrite Rabs_mult; apply Rmult_le_compat; auto using Rabs_pos).
  destruct (bmul_ok xh yh Fa Fb) as (F & V); [rewrite <- big_eq; lra|].
  apply (near_round _ _ (v xh * v yh) (top a * top b) (err a * top b + mag a * err b)); auto.
  - replace (v xh * v yh - x * y) with ((v xh - x) * v yh + x * (v yh - y)) by ring.
    eapply Rle_trans; [apply Rabs_triang|]. rewrite !Rabs_mult. apply Rplus_le_compat; apply Rmult_le_compat; auto using Rabs_pos.
  - cbn [mag eb_mul]. rewrite Rabs_mult. apply Rmult_le_compat; auto using Rabs_pos.
Qed.

Lemma near_div xh x a yh y b : near xh x a -> near yh y b -> 0 < low b -> top a / low b <= limit ->
  near (bdiv xh yh) (x / y) (eb_div a b).
Proof.
  intros Na Nb PL HL. pose proof (near_top _ _ _ Na) as (Ta & E1 & M1). pose proof (near_top _ _ _ Nb) as (Tb & E2 & M2).
  destruct Na as (Fa & Ea & Ma & _). destruct Nb as (Fb & Eb & Mb & L1 & L2).
  assert (Y1 : v yh <> 0) by (intros Q; rewrite Q, Rabs_R0 in L1; lra).
  assert (Y2 : y <> 0) by (intros Q; rewrite Q, Rabs_R0 in L2; lra).
  assert (I1 : Rabs (/ v yh) <= / low b) by (rewrite Rabs_inv; apply Rinv_le_contravar; auto).
  assert (I2 : Rabs (/ y) <= / low b) by (rewrite Rabs_inv; apply Rinv_le_contravar; auto).
  assert (PI : 0 < / low b) by (apply Rinv_0_lt_compat; exact PL).
  assert (Z : Rabs (v xh / v yh) <= top a / low b) by (unfold Rdiv; rewrite Rabs_mult; apply Rmult_le_compat; auto using Rabs_pos).
  destruct (bdiv_ok xh yh Fa Y1) as (F & V); [rewrite <- big_eq; lra|].
  apply (near_round _ _ (v xh / v yh) (top a / low b) (err a / low b + mag a * err b / low b ^ 2)); auto.
  - replace (v xh / v yh - x / y) with ((v xh - x) * / v yh + x * (- (v yh - y)) * (/ v yh * / y)) by (field; auto).
    eapply Rle_trans; [apply Rabs_triang|]. rewrite !Rabs_mult, Rabs_Ropp.
    apply Rplus_le_compat; [apply Rmult_le_compat; auto using Rabs_pos|].
    unfold Rdiv. replace (/ low b ^ 2) with (/ low b * / low b) by (field; lra).
    apply Rmult_le_compat; try (apply Rmult_le_pos; apply Rabs_pos);
      apply Rmult_le_compat; auto using Rabs_pos.
  - cbn [mag eb_div]. unfold Rdiv. rewrite Rabs_mult. apply Rmult_le_compat; auto using Rabs_pos.
Qed.

Lemma near_neg xh x a : near xh x a -> near (Bopp xh) (- x) (eb_neg a).
Proof.
  intros (F & E & M & L1 & L2). split; [rewrite is_finite_Bopp; exact F|]. rewrite B2R_Bopp, !Rabs_Ropp. cbn.
  replace (- v xh - - x) with (- (v xh - x)) by ring. rewrite Rabs_Ropp. auto.
Qed.
Lemma near_int z : (Z.abs z <= 2 ^ 53)%Z -> near (of_Z z) (IZR z) (eb_int z).
Proof.
  intros H. destruct (of_Z_ok z H) as (F & E). split; [exact F|]. rewrite E. cbn.
  replace (IZR z - IZR z) with 0 by ring. rewrite Rabs_R0. repeat split; apply Rle_refl.
Qed.

Lemma near_half : near fhalf (/ 2) eb_half.
Proof.
  assert (H1 : (Z.abs 1 <= 2 ^ 53)%Z) by (cbn; lia). assert (H2 : (Z.abs 2 <= 2 ^ 53)%Z) by (cbn; lia).
  destruct (of_Z_ok 1 H1) as (F1 & E1). destruct (of_Z_ok 2 H2) as (F2 & E2).
  assert (HB : 1 <= big) by (unfold big; replace 1 with (bpow radix2 0) by reflexivity; apply bpow_le; lia).
  destruct (bdiv_ok (of_Z 1) (of_Z 2) F1) as (F & V); rewrite ?E1, ?E2 in *; try lra.
  { replace (1 / 2) with (/ 2) by lra. rewrite Rabs_right; lra. }
  assert (Q : rnd (1 / 2) = / 2).
  { replace (1 / 2) with (bpow radix2 (-1)) by (cbn; lra). rewrite rnd_fix; [cbn; lra|].
    apply generic_format_bpow. unfold FLT_exp. lia. }
  unfold near, fhalf. rewrite V, Q. split; [exact F|]. cbn [err mag low eb_half]. replace (/ 2 - / 2) with 0 by ring.
  rewrite Rabs_R0, Rabs_right by lra. lra.
Qed.

(** ** expressions *)
Lemma peval_rvalue env e : peval real_ops env e = rvalue env e.
Proof. induction e; cbn [peval rvalue real_ops o_int o_neg o_add o_sub o_mul o_div]; rewrite ?IHe, ?IHe1, ?IHe2; reflexivity. Qed.
Lemma peval_near env64 env envb e : (forall k, near (env64 k) (env k) (envb k)) -> ok (peval eb_ops envb e) ->
  near (peval ops64 env64 e) (peval real_ops env e) (peval eb_ops envb e).
Proof.
  intros HE. induction e; cbn [peval]; intros O; cbn in O.
  - apply near_int; exact O.
  - apply HE.
  - apply near_neg. apply IHe; exact O.
  - destruct O as (O1 & O2 & O3). apply near_add; auto.
  - destruct O as (O1 & O2 & O3). apply near_sub; auto.
  - destruct O as (O1 & O2 & O3). apply near_mul; auto.
  - destruct O as (O1 & O2 & O3 & O4). apply near_div; auto.
Qed.

Section Schemes.
  Context {I : Type}.
  Variable D : I -> Prop.

  Lemma anear_add ah a ba ch c bc : anear D ah a ba -> anear D ch c bc -> top ba + top bc <= limit ->
    anear D (fvadd ah ch) (@vadd RF I a c) (eb_add ba bc).
  Proof. intros Ha Hc HL i Hi. apply near_add; auto. Qed.
  Lemma anear_scale xh x bx ch c bc : near xh x bx -> anear D ch c bc -> top bx * top bc <= limit ->
    anear D (fvscale xh ch) (@vscale RF I x c) (eb_mul bx bc).
  Proof. intros Ha Hc HL i Hi. apply near_mul; auto. Qed.
  Lemma anear_mul xh x bx ch c bc : near xh x bx -> anear D ch c bc -> top bc * top bx <= limit ->
    anear D (fvmul ch xh) (@vscale RF I x c) (eb_mul bc bx).
  Proof.
    intros Ha Hc HL i Hi. unfold fvmul, vscale. change (@fmul RF x (c i)) with (x * c i). rewrite Rmult_comm. apply near_mul; auto.
  Qed.

  Variable g : ftrend I.
  Variable f : R -> (I -> R) -> res (I -> R).
  Variable bt : eb -> eb -> eb.
  Hypothesis A : accurate D g f bt.

  Lemma trend_near th t b sh s b' : near th t b -> anear D sh s b' -> ok (eb_trend bt b b') ->
    exists kh k, g th sh = Ok kh /\ f t s = Ok k /\ anear D kh k (eb_trend bt b b').
  Proof.
    intros Ht Hs (_ & _ & O). destruct (A th t b sh s b' Ht Hs O) as (kh & k & E1 & E2 & N).
    exists kh, k. split; [exact E1|]. split; [exact E2|]. intros i Hi. exact (N i Hi).
  Qed.

  Lemma euler_near : accurate_step D (feuler g) (@euler RF I f) (eb_euler bt).
  Proof.
    intros th t b sh s b' dh d b'' Ht Hs Hd O. unfold eb_euler in O.
    destruct O as (O1 & (O2 & O3 & O4) & O5).
    destruct (trend_near _ _ _ _ _ _ Ht Hs O3) as (kh & k & E1 & E2 & N).
    unfold feuler, euler. rewrite E1, E2. cbn [bind]. do 2 eexists. split; [reflexivity|]. split; [reflexivity|].
    apply anear_add; [exact Hs| |exact O5]. apply anear_scale; auto.
  Qed.

  Lemma rk2_near : accurate_step D (frk2 g) (@rk2 RF I f) (eb_rk2 bt).
  Proof.
    intros th t b sh s b' dh d b'' Ht Hs Hd O. unfold eb_rk2 in O.
    destruct O as (O1 & (O2 & O3 & O4) & O5). pose proof O3 as (OT & OS & _).
    destruct OT as (OT1 & (OT2 & OT3 & OT4) & OT5). destruct OS as (OS1 & (OS2 & (OS3 & OS4 & OS5) & OS6) & OS7).
    destruct (trend_near _ _ _ _ _ _ Ht Hs OS2) as (kh & k & E1 & E2 & N).
    assert (HT : near (badd th (bmul fhalf dh)) (t + / 2 * d) (eb_add b (eb_mul eb_half b''))).
    { apply near_add; auto. apply near_mul; auto. apply near_half. }
    assert (HD : near (bmul dh fhalf) (d * / 2) (eb_mul b'' eb_half)) by (apply near_mul; auto; apply near_half).
    assert (HS : anear D (fvadd sh (fvmul kh (bmul dh fhalf))) (@vadd RF I s (@vscale RF I (d * / 2)%R k))
              (eb_add b' (eb_mul (eb_trend bt b b') (eb_mul b'' eb_half)))).
    { apply anear_add; [exact Hs| |exact OS7]. apply anear_mul; auto. }
    destruct (trend_near _ _ _ _ _ _ HT HS O3) as (kh2 & k2 & E3 & E4 & N2).
    assert (HH : @half RF = / 2) by (unfold half; cbn; field).
    unfold frk2, rk2. rewrite E1, E2. cbn [bind]. rewrite HH. rewrite E3.
    change (@fadd RF t (@fmul RF (/ 2) d)) with (t + / 2 * d). change (@fmul RF d (/ 2)) with (d * / 2).
    rewrite E4. cbn [bind]. do 2 eexists. split; [reflexivity|]. split; [reflexivity|].
    apply anear_add; [exact Hs| |exact O5]. apply anear_scale; auto.
  Qed.

  Lemma rk4_near : accurate_step D (frk4 g) (@rk4 RF I f) (eb_rk4 bt).
  Proof.
    intros th t b sh s b' dh d b'' Ht Hs Hd O. unfold eb_rk4 in *.
    set (B1 := eb_trend bt b b') in *. set (TH := eb_add b (eb_mul b'' eb_half)) in *.
    set (S2 := eb_add b' (eb_mul (eb_mul b'' eb_half) B1)) in *.
    set (B2 := eb_trend bt TH S2) in *.
    set (S3 := eb_add b' (eb_mul (eb_mul b'' eb_half) B2)) in *. set (B3 := eb_trend bt TH S3) in *.
    set (TE := eb_add b b'') in *. set (S4 := eb_add b' (eb_mul b'' B3)) in *. set (B4 := eb_trend bt TE S4) in *.
    cbv zeta in O.
    destruct O as (O1 & (OK & OD & O4) & O5).
    destruct OK as (OK & OB4 & O6). destruct OK as (OK & (OB3 & O7 & O8) & O9). destruct OK as (OB1 & (OB2 & O10 & O11) & O12).
    destruct OD as (OD1 & OD2 & OD3 & OD4).
    assert (OTH : ok TH) by exact (proj1 OB2). pose proof OTH as (_ & (_ & _ & OHD) & OTH').
    assert (HD : near (bmul dh fhalf) (d * / 2) (eb_mul b'' eb_half)) by (apply near_mul; auto; apply near_half).
    assert (HT : near (badd th (bmul dh fhalf)) (t + d * / 2) TH) by (apply near_add; auto).
    assert (OS2 : ok S2) by exact (proj1 (proj2 OB2)). destruct OS2 as (_ & (_ & _ & OM2) & OA2).
    assert (OS3 : ok S3) by exact (proj1 (proj2 OB3)). destruct OS3 as (_ & (_ & _ & OM3) & OA3).
    assert (OTE : ok TE) by exact (proj1 OB4). destruct OTE as (_ & _ & OTE).
    assert (OS4 : ok S4) by exact (proj1 (proj2 OB4)). destruct OS4 as (_ & (_ & _ & OM4) & OA4).
    destruct (trend_near _ _ _ _ _ _ Ht Hs OB1) as (kh1 & k1 & E1 & F1 & N1).
    assert (HS2 : anear D (fvadd sh (fvscale (bmul dh fhalf) kh1)) (@vadd RF I s (@vscale RF I (d * / 2)%R k1)) S2).
    { apply anear_add; [exact Hs| |exact OA2]. apply anear_scale; auto. }
    destruct (trend_near _ _ _ _ _ _ HT HS2 OB2) as (kh2 & k2 & E2 & F2 & N2).
    assert (HS3 : anear D (fvadd sh (fvscale (bmul dh fhalf) kh2)) (@vadd RF I s (@vscale RF I (d * / 2)%R k2)) S3).
    { apply anear_add; [exact Hs| |exact OA3]. apply anear_scale; auto. }
    destruct (trend_near _ _ _ _ _ _ HT HS3 OB3) as (kh3 & k3 & E3 & F3 & N3).
    assert (HT4 : near (badd th dh) (t + d) TE) by (apply near_add; auto).
    assert (HS4 : anear D (fvadd sh (fvscale dh kh3)) (@vadd RF I s (@vscale RF I d k3)) S4).
    { apply anear_add; [exact Hs| |exact OA4]. apply anear_scale; auto. }
    destruct (trend_near _ _ _ _ _ _ HT4 HS4 OB4) as (kh4 & k4 & E4 & F4 & N4).
    assert (HH : @half RF = / 2) by (unfold half; cbn; field).
    assert (H6 : @fdiv RF d (fnat 6) = d / 6) by (cbn; field).
    assert (H2 : @fnat RF 2 = 2) by (cbn; ring).
    unfold frk4, rk4. rewrite E1, F1. cbn [bind]. rewrite HH, H6, H2.
    change (@fmul RF d (/ 2)) with (d * / 2). change (@fadd RF t (d * / 2)%R) with (t + d * / 2). change (@fadd RF t d) with (t + d).
    rewrite E2, F2. cbn [bind]. rewrite E3, F3. cbn [bind]. rewrite E4, F4. cbn [bind].
    do 2 eexists. split; [reflexivity|]. split; [reflexivity|].
    assert (Z2 : near (of_Z 2) 2 (eb_int 2)) by (apply near_int; cbn; lia).
    assert (Z6 : near (bdiv dh (of_Z 6)) (d / 6) (eb_div b'' (eb_int 6))) by (apply near_div; auto; apply near_int; cbn; lia).
    apply anear_add; [exact Hs| |exact O5]. apply anear_mul; [exact Z6| |exact O4].
    repeat (apply anear_add; auto); apply anear_mul; auto.
  Qed.
End Schemes.

Lemma onestep_near {I} (D : I -> Prop) g f bt s : accurate D g f bt ->
  accurate_step D (fonestep s g) (@onestep_fun RF I s f) (eb_onestep s bt).
Proof. intros A. destruct s; [apply euler_near|apply rk2_near|apply rk4_near]; exact A. Qed.

Lemma leapfrog_near {I} (D : I -> Prop) g f bt : accurate D g f bt ->
  forall th t b s0h s0 b0 s1h s1 b1 dh d bd, near th t b -> anear D s0h s0 b0 -> anear D s1h s1 b1 -> near dh d bd ->
    ok (eb_leapfrog bt b b0 b1 bd) ->
    exists rh r, fleapfrog g th [s0h; s1h] dh = Ok [s1h; rh] /\ @leapfrog RF I f t [s0; s1] d = Ok [s1; r] /\
      anear D rh r (eb_leapfrog bt b b0 b1 bd).
Proof.
  intros A th t b s0h s0 b0 s1h s1 b1 dh d bd Ht H0 H1 Hd O. unfold eb_leapfrog in O.
  destruct O as (O1 & (O2 & (O3 & O4 & O5) & O6) & O7).
  destruct (trend_near D g f bt A _ _ _ _ _ _ Ht H1 O2) as (kh & k & E1 & E2 & N).
  unfold fleapfrog, leapfrog. rewrite E1, E2. cbn [bind]. do 2 eexists. split; [reflexivity|]. split; [reflexivity|].
  apply anear_add; [exact H0| |exact O7]. apply anear_mul; auto.
  assert (E : @fmul RF (@fnat RF 2) d = (2 * d)%R) by (cbn; ring). rewrite E. apply near_mul; auto. apply near_int. cbn; lia.
Qed.
