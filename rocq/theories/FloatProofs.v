(** Error analysis of FloatModel.v. *)
From Coq Require Import List ZArith Bool Reals Lra Lia.
From Flocq Require Import Core.Core Relative Plus_error IEEE754.BinarySingleNaN.
From Verif Require Import PyBase ForecastModel ForecastSpec ForecastProofs ForecastMore FloatModel FloatSpec.
Import ListNotations.
Open Scope R_scope.

Definition rnd (x : R) : R := round radix2 (FLT_exp (-1074) 53) ZnearestE x.
Definition uu : R := / 9007199254740992.
Definition eta : R := bpow radix2 (-1075).

Lemma rnd_err : forall x, Rabs (rnd x - x) <= uu * Rabs x + eta.
Proof.
  intros x. destruct (error_N_FLT radix2 (-1074) 53 eq_refl (fun z => negb (Z.even z)) x)
    as [e [h [He [Hh [_ E]]]]].
  assert (E' : rnd x = x * (1 + e) + h) by exact E. clear E.
  rewrite E'. replace (x * (1 + e) + h - x) with (e * x + h) by ring.
  eapply Rle_trans; [apply Rabs_triang|]. apply Rplus_le_compat.
  - rewrite Rabs_mult. apply Rmult_le_compat_r; [apply Rabs_pos|].
    eapply Rle_trans; [exact He|]. unfold uu. simpl. lra.
  - eapply Rle_trans; [exact Hh|]. unfold eta.
    change (-1074)%Z with (1 + -1075)%Z. rewrite bpow_plus. simpl (bpow radix2 1). lra.
Qed.

Lemma eta_pos : 0 < eta. Proof. apply bpow_gt_0. Qed.

Lemma rnd_0 : rnd 0 = 0.
Proof. apply round_0. apply valid_rnd_N. Qed.

Lemma rnd_le x y : x <= y -> rnd x <= rnd y.
Proof. intros. apply round_le; auto; [apply FLT_exp_valid; reflexivity|apply valid_rnd_N]. Qed.

Definition big : R := bpow radix2 1000.
Lemma big_lt x : Rabs x <= big -> Rabs (rnd x) < bpow radix2 1024.
Proof.
  intros H. pose proof (rnd_err x) as E. pose proof eta_pos.
  assert (Hb : eta <= 1) by (unfold eta; replace 1 with (bpow radix2 0) by reflexivity; apply bpow_le; lia).
  assert (H1 : 1 <= big) by (unfold big; replace 1 with (bpow radix2 0) by reflexivity; apply bpow_le; lia).
  assert (H2 : 4 * big <= bpow radix2 1024).
  { unfold big. replace 4 with (bpow radix2 2) by (simpl; lra). rewrite <- bpow_plus. apply bpow_le; lia. }
  assert (uu * Rabs x <= Rabs x) by (rewrite <- (Rmult_1_l (Rabs x)) at 2;
     apply Rmult_le_compat_r; [apply Rabs_pos|unfold uu; lra]).
  replace (rnd x) with ((rnd x - x) + x) by ring.
  eapply Rle_lt_trans; [apply Rabs_triang|]. lra.
Qed.


Lemma badd_ok (x y : b64) : fin x -> fin y -> Rabs (v x + v y) <= big ->
  fin (badd x y) /\ v (badd x y) = rnd (v x + v y).
Proof.
  intros Fx Fy H. pose proof (Bplus_correct 53 1024 _ _ mode_NE x y Fx Fy) as C.
  rewrite Rlt_bool_true in C by (apply big_lt; exact H).
  destruct C as [A [B _]]. split; assumption.
Qed.

Lemma bsub_ok (x y : b64) : fin x -> fin y -> Rabs (v x - v y) <= big ->
  fin (bsub x y) /\ v (bsub x y) = rnd (v x - v y).
Proof.
  intros Fx Fy H. pose proof (Bminus_correct 53 1024 _ _ mode_NE x y Fx Fy) as C.
  rewrite Rlt_bool_true in C by (apply big_lt; exact H).
  destruct C as [A [B _]]. split; assumption.
Qed.

Lemma bmul_ok (x y : b64) : fin x -> fin y -> Rabs (v x * v y) <= big ->
  fin (bmul x y) /\ v (bmul x y) = rnd (v x * v y).
Proof.
  intros Fx Fy H. pose proof (Bmult_correct 53 1024 _ _ mode_NE x y) as C.
  rewrite Rlt_bool_true in C by (apply big_lt; exact H).
  destruct C as [A [B _]]. rewrite Fx, Fy in B. split; assumption.
Qed.

Lemma bdiv_ok (x y : b64) : fin x -> v y <> 0 -> Rabs (v x / v y) <= big ->
  fin (bdiv x y) /\ v (bdiv x y) = rnd (v x / v y).
Proof.
  intros Fx Hy H. pose proof (Bdiv_correct 53 1024 _ _ mode_NE x y Hy) as C.
  rewrite Rlt_bool_true in C by (apply big_lt; exact H).
  destruct C as [A [B _]]. rewrite Fx in B. split; assumption.
Qed.

Lemma rnd_fix x : generic_format radix2 (FLT_exp (-1074) 53) x -> rnd x = x.
Proof. apply round_generic. apply valid_rnd_N. Qed.

Lemma rnd_v (x : b64) : rnd (v x) = v x.
Proof. apply rnd_fix. apply (generic_format_B2R 53 1024). Qed.

Lemma rnd_int z : (Z.abs z <= 2 ^ 53)%Z -> rnd (IZR z) = IZR z.
Proof.
  intros H. apply rnd_fix.
  destruct (Z.eq_dec (Z.abs z) (2^53)) as [E|N].
  - assert (G : generic_format radix2 (FLT_exp (-1074) 53) (bpow radix2 53)).
    { apply generic_format_bpow. unfold FLT_exp. lia. }
    assert (z = 2^53 \/ z = - 2^53)%Z as [->| ->] by lia.
    + exact G.
    + rewrite opp_IZR. apply generic_format_opp. exact G.
  - apply generic_format_FLT. exists (Float radix2 z 0); simpl; try lia.
    unfold F2R. simpl. ring.
Qed.

Lemma of_Z_ok z : (Z.abs z <= 2 ^ 53)%Z -> fin (of_Z z) /\ v (of_Z z) = IZR z.
Proof.
  intros H. pose proof (binary_normalize_correct 53 1024 _ _ mode_NE z 0 false) as C.
  cbv zeta in C.
  assert (E : F2R (Float radix2 z 0) = IZR z) by (unfold F2R; simpl; ring).
  rewrite E in C.
  rewrite Rlt_bool_true in C.
  - destruct C as [A [B _]]. split; [exact B|]. etransitivity; [exact A|]. apply (rnd_int z H).
  - apply big_lt. rewrite <- abs_IZR.
    apply Rle_trans with (IZR (2^53)); [apply IZR_le; exact H|].
    change (IZR (2^53)) with (bpow radix2 53). apply bpow_le. lia.
Qed.

(** ** [safe_ceil] *)
Lemma v_finite s m e H : v (B754_finite s m e H : b64) = IZR (if s then Zneg m else Zpos m) * bpow radix2 e.
Proof. simpl. unfold F2R. simpl. destruct s; reflexivity. Qed.

Lemma ceil_unique (z : Z) x : IZR z - 1 < x <= IZR z -> Zceil x = z.
Proof. intros H. apply Zceil_imp. rewrite minus_IZR. exact H. Qed.

Lemma safe_ceil_ok (x : b64) : fin x -> (- 2 ^ 63 <= Zceil (v x) < 2 ^ 63)%Z ->
  safe_ceil x = Ok (Zceil (v x)).
Proof.
  destruct x as [s|s| |s m e H]; intros F B; try discriminate.
  - simpl. rewrite Zceil_IZR. reflexivity.
  - rewrite v_finite in *. cbn [safe_ceil].
    set (w := if s then Zneg m else Zpos m) in *.
    set (c := match e with Z0 => w | _ => _ end).
    assert (E : Zceil (IZR w * bpow radix2 e) = c).
    { destruct e as [|p|p]; unfold c; simpl bpow.
      - rewrite Rmult_1_r. apply Zceil_IZR.
      - rewrite <- mult_IZR. apply Zceil_IZR.
      - unfold Zceil. f_equal.
        rewrite <- Zfloor_div by (apply Z.neq_sym, Z.lt_neq; apply (Zpower_pos_gt_0 2 p); reflexivity).
        f_equal. rewrite opp_IZR. unfold Rdiv. ring. }
    rewrite E in *. change (Z.pow_pos 2 63) with (2^63)%Z.
    destruct (Z.leb_spec (- 2^63) c); [|lia]. destruct (Z.ltb_spec c (2^63)); [|lia]. reflexivity.
Qed.

Lemma is_zero_v (x : b64) : is_zero x = true -> v x = 0.
Proof. destruct x; try discriminate. reflexivity. Qed.

(** ** The number of points *)
Lemma eta_small d : small_step d -> eta <= uu * d /\ 0 < d.
Proof.
  intros [H _]. assert (0 < d) by (eapply Rlt_le_trans; [|exact H]; apply bpow_gt_0). split; auto.
  apply Rle_trans with (uu * bpow radix2 (-1000)).
  - replace uu with (bpow radix2 (-53)) by (unfold uu; simpl; lra).
    unfold eta. rewrite <- bpow_plus. apply bpow_le. lia.
  - apply Rmult_le_compat_l; [unfold uu; lra|exact H].
Qed.

Lemma eta_tiny : eta <= uu.
Proof. unfold eta. replace uu with (bpow radix2 (-53)) by (unfold uu; simpl; lra). apply bpow_le. lia. Qed.

Lemma big_step d k : small_step d -> k <= bpow radix2 60 -> 0 <= k -> k * d <= big.
Proof.
  intros [G H] Hk H0. unfold big.
  assert (0 < d) by (eapply Rlt_le_trans; [|exact G]; apply bpow_gt_0).
  apply Rle_trans with (bpow radix2 60 * bpow radix2 900).
  - apply Rmult_le_compat; auto. lra.
  - rewrite <- bpow_plus. apply bpow_le. lia.
Qed.

Lemma abs_le x y : - y <= x <= y -> Rabs x <= y.
Proof. intros [A B]. unfold Rabs. destruct (Rcase_abs x); lra. Qed.
Lemma le_abs x y : Rabs x <= y -> - y <= x <= y.
Proof. unfold Rabs. destruct (Rcase_abs x); lra. Qed.

Lemma rnd_near x y h : Rabs x <= y -> eta <= h -> x - (uu * y + h) <= rnd x <= x + (uu * y + h).
Proof.
  intros H Hh. pose proof (rnd_err x) as E. apply le_abs in E.
  assert (uu * Rabs x <= uu * y) by (apply Rmult_le_compat_l; [unfold uu; lra|exact H]). lra.
Qed.

Ltac big_lin := match goal with H : small_step ?d |- Rabs _ <= big =>
  apply Rle_trans with (bpow radix2 50 * d);
  [apply abs_le; simpl bpow; split; lra
  |apply big_step; [exact H|apply bpow_le; lia|apply bpow_ge_0]] end.

Lemma quotient_near dt stop start : windowable dt stop start ->
  let b := badd stop (bdiv dt (of_Z 3)) in
  let q := bdiv (bsub b start) dt in
  is_zero dt = false /\ fin q /\
  Rabs (v q - ((v stop - v start) / v dt + / 3)) <= / 100 /\
  (is_zero q = true -> is_zero (bsub b start) = false -> Rabs (v stop - v start + v dt / 3) <= v dt / 100).
Proof.
  intros [Fd Fe Fs S He Hs] b q.
  destruct (eta_small _ S) as [Eh Hd]. pose proof eta_pos as E0. pose proof eta_tiny as E1.
  destruct (of_Z_ok 3 ltac:(lia)) as [_ V3].
  set (d := v dt) in *. set (e := v stop) in *. set (s := v start) in *.
  apply le_abs in He. apply le_abs in Hs. unfold two40 in *.
  assert (Hu : uu = / 9007199254740992) by reflexivity.
  assert (T : fin (bdiv dt (of_Z 3)) /\ v (bdiv dt (of_Z 3)) = rnd (d / 3)).
  { unfold d in *. rewrite <- V3. apply bdiv_ok; auto; rewrite V3; [lra|]. big_lin. }
  destruct T as [Ft Vt].
  assert (Nt := rnd_near (d/3) d (uu * d) ltac:(apply abs_le; lra) Eh). rewrite <- Vt in Nt.
  set (t := v (bdiv dt (of_Z 3))) in *.
  rewrite Hu in Eh, E1, Nt.
  assert (B : fin b /\ v b = rnd (e + t)) by (apply badd_ok; auto; fold t; fold e; big_lin).
  destruct B as [Fb Vb].
  assert (Nb := rnd_near (e+t) (2199023255552 * d) _ ltac:(apply abs_le; lra) Eh).
  rewrite <- Vb in Nb. rewrite Hu in Nb.
  set (bb := v b) in *.
  assert (C : fin (bsub b start) /\ v (bsub b start) = rnd (bb - s))
    by (apply bsub_ok; auto; fold s; fold bb; big_lin).
  destruct C as [Fc Vc].
  assert (Nc := rnd_near (bb-s) (4398046511104 * d) _ ltac:(apply abs_le; lra) Eh).
  rewrite <- Vc in Nc. rewrite Hu in Nc.
  assert (Hc : Rabs (v (bsub b start) - (e - s + d / 3)) <= d / 1000) by (apply abs_le; lra).
  set (c := v (bsub b start)) in *.
  assert (Kc : Rabs (c / d) <= 8796093022208).
  { unfold Rdiv. rewrite Rabs_mult, (Rabs_right (/ d)) by (apply Rle_ge, Rlt_le, Rinv_0_lt_compat, Hd).
    apply Rmult_le_reg_r with d; auto. rewrite Rmult_assoc, Rinv_l by lra. rewrite Rmult_1_r.
    apply abs_le. lra. }
  assert (Q : fin q /\ v q = rnd (c / d)).
  { apply bdiv_ok; auto; fold d; [lra|]. fold c. eapply Rle_trans; [exact Kc|].
    apply Rle_trans with (bpow radix2 43); [simpl; lra|]. apply bpow_le. lia. }
  destruct Q as [Fq Vq].
  assert (Nq := rnd_near (c / d) _ _ Kc E1). rewrite <- Vq in Nq. rewrite Hu in Nq.
  assert (Kd : Rabs (c / d - ((e - s) / d + / 3)) <= / 1000).
  { replace (c / d - ((e - s) / d + / 3)) with ((c - (e - s + d / 3)) * / d) by (field; lra).
    rewrite Rabs_mult, (Rabs_right (/ d)) by (apply Rle_ge, Rlt_le, Rinv_0_lt_compat, Hd).
    apply Rmult_le_reg_r with d; auto. rewrite Rmult_assoc, Rinv_l by lra. lra. }
  split; [|split; [exact Fq|split]].
  - destruct (is_zero dt) eqn:Z; auto. apply is_zero_v in Z. fold d in Z. lra.
  - apply le_abs in Kd. apply abs_le. lra.
  - intros Zq _. apply is_zero_v in Zq. rewrite Zq in Nq. 
    apply le_abs in Kd.
    assert (Rabs ((e - s) / d + /3) <= / 100) by (apply abs_le; lra).
    replace (e - s + d / 3) with (((e - s) / d + / 3) * d) by (field; lra).
    rewrite Rabs_mult, (Rabs_right d) by lra.
    apply Rle_trans with (/100 * d); [apply Rmult_le_compat_r; lra|lra].
Qed.

Lemma ratio_near x d n k : 0 < d -> Rabs (x - n * d) <= k * d -> Rabs (x / d - n) <= k.
Proof.
  intros Hd H. replace (x / d - n) with ((x - n * d) * / d) by (field; lra).
  rewrite Rabs_mult, (Rabs_right (/ d)) by (apply Rle_ge, Rlt_le, Rinv_0_lt_compat, Hd).
  apply Rmult_le_reg_r with d; auto. rewrite Rmult_assoc, Rinv_l by lra. lra.
Qed.

Lemma arange_length_near dt stop start n : windowable dt stop start -> (0 <= n)%Z ->
  Rabs (v stop - v start - IZR n * v dt) <= v dt / 4 ->
  arange_length start (badd stop (bdiv dt (of_Z 3))) dt = Ok (n + 1)%Z.
Proof.
  intros W Hn H. destruct (quotient_near _ _ _ W) as [Zd [Fq [Nq _]]].
  destruct (eta_small _ (w_step _ _ _ W)) as [_ Hd].
  pose proof (ratio_near (v stop - v start) (v dt) (IZR n) (/4) Hd ltac:(lra)) as R.
  pose proof (w_stop_le _ _ _ W) as He. pose proof (w_start_le _ _ _ W) as Hs.
  unfold arange_length. rewrite Zd.
  set (b := badd stop (bdiv dt (of_Z 3))) in *. set (q := bdiv (bsub b start) dt) in *.
  apply le_abs in R. apply le_abs in Nq. apply IZR_le in Hn.
  assert (C : Zceil (v q) = (n + 1)%Z).
  { apply ceil_unique. rewrite plus_IZR. lra. }
  destruct (is_zero q) eqn:Zq.
  { exfalso. apply is_zero_v in Zq. rewrite Zq in *. lra. }
  cbn [andb]. rewrite safe_ceil_ok, C; auto. rewrite C.
  assert (N : IZR n < IZR (2^62)).
  { apply le_abs in He. apply le_abs in Hs. apply le_abs in H. unfold two40 in *.
    apply Rmult_lt_reg_r with (v dt); auto. change (IZR (2^62)) with 4611686018427387904. lra. }
  apply lt_IZR in N. apply le_IZR in Hn. lia.
Qed.

Lemma arange_length_empty dt stop start : windowable dt stop start ->
  v stop <= v start - v dt / 2 ->
  exists z, (z <= 0)%Z /\ arange_length start (badd stop (bdiv dt (of_Z 3))) dt = Ok z.
Proof.
  intros W H. destruct (quotient_near _ _ _ W) as [Zd [Fq [Nq _]]].
  destruct (eta_small _ (w_step _ _ _ W)) as [_ Hd].
  pose proof (w_stop_le _ _ _ W) as He. pose proof (w_start_le _ _ _ W) as Hs.
  unfold arange_length. rewrite Zd.
  set (b := badd stop (bdiv dt (of_Z 3))) in *. set (q := bdiv (bsub b start) dt) in *.
  apply le_abs in Nq.
  assert (R1 : (v stop - v start) / v dt <= - / 2).
  { apply Rmult_le_reg_r with (v dt); auto. unfold Rdiv. rewrite Rmult_assoc, Rinv_l by lra. lra. }
  assert (R2 : - 4398046511104 <= (v stop - v start) / v dt).
  { apply le_abs in He. apply le_abs in Hs. unfold two40 in *.
    apply Rmult_le_reg_r with (v dt); auto. unfold Rdiv. rewrite Rmult_assoc, Rinv_l by lra. lra. }
  destruct (is_zero q) eqn:Zq.
  { exfalso. apply is_zero_v in Zq. rewrite Zq in *. lra. }
  cbn [andb].
  assert (C1 : (Zceil (v q) <= 0)%Z) by (apply Zceil_glb; lra).
  assert (C2 : (- 2 ^ 62 <= Zceil (v q))%Z).
  { apply le_IZR. eapply Rle_trans; [|apply Zceil_ub].
    change (IZR (- 2^62)) with (-4611686018427387904). lra. }
  exists (Zceil (v q)). split; auto. apply safe_ceil_ok; auto. lia.
Qed.

(** ** The points *)
Lemma point_err dt start i : fin dt -> fin start -> small_step (v dt) ->
  Rabs (v start) <= two40 * v dt -> (Z.of_nat i <= 2 ^ 42)%Z ->
  fin (arange_point start dt i) /\
  Rabs (v (arange_point start dt i) - (v start + INR i * v dt)) <= 10 * uu * (INR i * (Rabs (v start) + v dt)).
Proof.
  intros Fd Fs SS Hs Hi.
  destruct (eta_small _ SS) as [Eh Hd]. pose proof eta_pos as E0.
  set (d := v dt) in *. set (s := v start) in *.
  set (a := Rabs s) in *. assert (Ha : 0 <= a) by apply Rabs_pos.
  pose proof (le_abs s a (Rle_refl _)) as Hsa. unfold two40 in *.
  assert (Hu : uu = / 9007199254740992) by reflexivity. rewrite Hu in Eh.
  destruct (badd_ok start dt Fs Fd) as [F1 V1]. { fold s d. big_lin. } fold s d in V1.
  assert (N1 := rnd_near (s + d) (a + d) _ ltac:(apply abs_le; lra) Eh). rewrite <- V1, Hu in N1.
  destruct i as [|[|k]].
  - split; [exact Fs|]. simpl INR. unfold arange_point. fold s.
    rewrite !Rmult_0_l, Rmult_0_r, Rplus_0_r. unfold Rminus. rewrite Rplus_opp_r, Rabs_R0. lra.
  - split; [exact F1|]. simpl INR. cbn [arange_point]. rewrite Hu. apply abs_le. lra.
  - cbn [arange_point]. set (i := S (S k)) in *.
    destruct (of_Z_ok (Z.of_nat i)) as [Fi Vi]; [lia|]. rewrite <- INR_IZR_INZ in Vi.
    assert (I2 : 2 <= INR i) by (unfold i; rewrite !S_INR; pose proof (pos_INR k); lra).
    assert (Im : INR i <= 4398046511104).
    { rewrite INR_IZR_INZ. apply IZR_le in Hi. exact Hi. }
    set (x1 := v (badd start dt)) in *.
    destruct (bsub_ok (badd start dt) start F1 Fs) as [F2 V2]. { fold s x1. big_lin. } fold s x1 in V2.
    assert (N2 := rnd_near (x1 - s) (2 * d) _ ltac:(apply abs_le; lra) Eh). rewrite <- V2, Hu in N2.
    set (dl := v (bsub (badd start dt) start)) in *. set (I := INR i) in *.
    set (A := a + d) in *.
    assert (D1 : - (5 / 9007199254740992 * A) <= dl - d <= 5 / 9007199254740992 * A) by (unfold A in *; lra).
    assert (DI : - (5 / 9007199254740992 * (I * A)) <= I * dl - I * d <= 5 / 9007199254740992 * (I * A)).
    { destruct D1 as [D1 D1']. apply (Rmult_le_compat_l I) in D1; [|lra]. apply (Rmult_le_compat_l I) in D1'; [|lra].
      split; lra. }
    assert (IA : I * d <= I * A) by (apply Rmult_le_compat_l; unfold A; lra).
    assert (I2A : 2 * A <= I * A) by (apply Rmult_le_compat_r; unfold A; lra).
    assert (ImA : I * A <= 4398046511104 * A) by (apply Rmult_le_compat_r; unfold A; lra).
    assert (Imd : I * d <= 4398046511104 * d) by (apply Rmult_le_compat_r; lra).
    assert (I0d : 0 <= I * d) by (apply Rmult_le_pos; lra).
    assert (AA : A <= 1099511627777 * d) by (unfold A; lra).
    assert (Ad : d <= A /\ a <= A) by (unfold A; lra).
    set (P := I * A) in *. set (Q := I * d) in *.
    destruct (bmul_ok (of_Z (Z.of_nat i)) (bsub (badd start dt) start) Fi F2) as [F3 V3].
    { rewrite Vi. fold I dl. big_lin. }
    rewrite Vi in V3. fold I dl in V3.
    assert (N3 := rnd_near (I * dl) (Q + 5 / 9007199254740992 * P) _ ltac:(apply abs_le; lra) Eh).
    rewrite <- V3, Hu in N3.
    set (p := v (bmul (of_Z (Z.of_nat i)) (bsub (badd start dt) start))) in *.
    destruct (badd_ok start (bmul (of_Z (Z.of_nat i)) (bsub (badd start dt) start)) Fs F3) as [F4 V4].
    { fold s p. big_lin. }
    fold s p in V4.
    assert (N4 := rnd_near (s + p) (a + (Q + 10 / 9007199254740992 * P)) _ ltac:(apply abs_le; lra) Eh).
    rewrite <- V4, Hu in N4.
    split; [exact F4|]. rewrite Hu. apply abs_le. unfold A in I2A. lra.
Qed.

Lemma point_zero dt start i : fin dt -> fin start -> v start = 0 -> small_step (v dt) ->
  (Z.of_nat i <= 2 ^ 42)%Z -> v (arange_point start dt i) = rnd (INR i * v dt).
Proof.
  intros Fd Fs S0 SS Hi.
  destruct (eta_small _ SS) as [Eh Hd]. set (d := v dt) in *.
  assert (Im : INR i <= 4398046511104).
  { rewrite INR_IZR_INZ. apply IZR_le in Hi. exact Hi. }
  assert (Imd : INR i * d <= 4398046511104 * d) by (apply Rmult_le_compat_r; lra).
  assert (I0d : 0 <= INR i * d) by (apply Rmult_le_pos; [apply pos_INR|lra]).
  assert (Rd : rnd d = d) by apply rnd_v.
  destruct (badd_ok start dt Fs Fd) as [F1 V1]. { rewrite S0. fold d. big_lin. }
  rewrite S0, Rplus_0_l in V1. fold d in V1. rewrite Rd in V1.
  destruct i as [|[|k]].
  - simpl INR. cbn [arange_point]. rewrite Rmult_0_l, rnd_0. exact S0.
  - simpl INR. cbn [arange_point]. rewrite Rmult_1_l, Rd. exact V1.
  - cbn [arange_point]. set (i := S (S k)) in *.
    destruct (of_Z_ok (Z.of_nat i)) as [Fi Vi]; [lia|]. rewrite <- INR_IZR_INZ in Vi.
    destruct (bsub_ok (badd start dt) start F1 Fs) as [F2 V2]. { rewrite S0, V1. big_lin. }
    rewrite S0, V1, Rminus_0_r, Rd in V2.
    destruct (bmul_ok (of_Z (Z.of_nat i)) (bsub (badd start dt) start) Fi F2) as [F3 V3].
    { rewrite Vi, V2. big_lin. }
    rewrite Vi, V2 in V3.
    destruct (badd_ok start (bmul (of_Z (Z.of_nat i)) (bsub (badd start dt) start)) Fs F3) as [F4 V4].
    { rewrite S0, Rplus_0_l, V3.
      assert (N := rnd_near (INR i * d) (INR i * d) _ ltac:(apply abs_le; lra) Eh).
      replace uu with (/ 9007199254740992) in N by reflexivity. big_lin. }
    rewrite V4, S0, Rplus_0_l, rnd_v. exact V3.
Qed.

(** ** The window *)
Lemma window_ok dt stop start n : windowable dt stop start ->
  Rabs (v stop - v start - INR n * v dt) <= v dt / 4 ->
  fwindow dt stop start = Ok (map (arange_point start dt) (seq 0 (S n))).
Proof.
  intros W H. unfold fwindow, farange. rewrite INR_IZR_INZ in H.
  rewrite (arange_length_near _ _ _ (Z.of_nat n) W); [|lia|exact H]. cbn [bind].
  do 3 f_equal. lia.
Qed.

Lemma window_index dt stop start n : windowable dt stop start ->
  Rabs (v stop - v start - INR n * v dt) <= v dt / 4 -> (Z.of_nat n < 2 ^ 42)%Z.
Proof.
  intros W H. destruct (eta_small _ (w_step _ _ _ W)) as [_ Hd].
  pose proof (w_stop_le _ _ _ W) as He. pose proof (w_start_le _ _ _ W) as Hs.
  apply le_abs in He. apply le_abs in Hs. apply le_abs in H. unfold two40 in *.
  apply lt_IZR. rewrite <- INR_IZR_INZ.
  apply Rmult_lt_reg_r with (v dt); auto. change (IZR (2^42)) with 4398046511104. lra.
Qed.

Lemma window_empty dt stop start : windowable dt stop start ->
  v stop <= v start - v dt / 2 -> fwindow dt stop start = Ok [].
Proof.
  intros W H. unfold fwindow, farange.
  destruct (arange_length_empty _ _ _ W H) as [z [Hz ->]]. cbn [bind].
  replace (Z.to_nat z) with 0%nat by lia. reflexivity.
Qed.

Lemma steps_near dt start i : fin dt -> fin start -> small_step (v dt) ->
  Rabs (v start) <= two40 * v dt -> (Z.of_nat (S i) <= 2 ^ 42)%Z ->
  INR (S i) * (Rabs (v start) + v dt) <= 281474976710656 * v dt ->
  v (arange_point start dt i) < v (arange_point start dt (S i)) /\
  Rabs (v (bsub (arange_point start dt (S i)) (arange_point start dt i)) - v dt)
  <= 24 * uu * (INR (S i) * (Rabs (v start) + v dt)).
Proof.
  intros Fd Fs S Hs Hi HA.
  destruct (eta_small _ S) as [Eh Hd].
  destruct (point_err dt start i Fd Fs S Hs ltac:(lia)) as [Fa Na].
  destruct (point_err dt start (Datatypes.S i) Fd Fs S Hs Hi) as [Fb Nb].
  set (x := arange_point start dt i) in *. set (y := arange_point start dt (Datatypes.S i)) in *.
  set (d := v dt) in *. set (a := Rabs (v start)) in *.
  assert (0 <= a) by apply Rabs_pos.
  rewrite S_INR in *. pose proof (pos_INR i) as I0. set (I := INR i) in *.
  assert (J : I * (a + d) <= (I + 1) * (a + d)) by (apply Rmult_le_compat_r; lra).
  assert (J1 : d <= (I + 1) * (a + d)).
  { apply Rle_trans with (1 * (a + d)); [lra|]. apply Rmult_le_compat_r; lra. }
  set (P := (I + 1) * (a + d)) in *. set (P' := I * (a + d)) in *.
  apply le_abs in Na. apply le_abs in Nb.
  replace ((I + 1) * d) with (I * d + d) in Nb by ring. set (Q := I * d) in *.
  assert (Hu : uu = / 9007199254740992) by reflexivity. rewrite Hu in *.
  assert (LT : v x < v y) by lra.
  split; [exact LT|].
  destruct (bsub_ok y x Fb Fa) as [F V]. { big_lin. }
  assert (N := rnd_near (v y - v x) (2 * d) _ ltac:(apply abs_le; lra) Eh).
  rewrite Hu in N. rewrite <- V in N.
  apply abs_le. lra.
Qed.

Lemma rnd_closest (r : R) (x : b64) : v x = rnd r -> closest x r.
Proof.
  intros E y Fy. rewrite E.
  destruct (round_N_pt radix2 (FLT_exp (-1074) 53) (fun z => negb (Z.even z)) r) as [_ M].
  apply M. apply (generic_format_B2R 53 1024).
Qed.

Lemma Ok_inj {A} (x y : A) : Ok x = Ok y -> y = x.
Proof. congruence. Qed.

Lemma nth_map_seq {A} (f : nat -> A) n i t : nth_error (map f (seq 0 n)) i = Some t ->
  (i < n)%nat /\ t = f i.
Proof.
  intros H. assert (L : (i < n)%nat).
  { rewrite <- (seq_length n 0), <- (map_length f). apply nth_error_Some. rewrite H. discriminate. }
  split; auto. rewrite nth_error_map in H.
  rewrite (nth_error_nth' _ 0%nat) in H by (rewrite seq_length; exact L).
  rewrite seq_nth in H by exact L. cbn in H. congruence.
Qed.

Lemma window_length dt stop start n : windowable dt stop start ->
  Rabs (v stop - v start - INR n * v dt) <= v dt / 4 ->
  exists l, fwindow dt stop start = Ok l /\ length l = S n /\ nth_error l 0 = Some start.
Proof.
  intros W H. eexists. split; [apply (window_ok _ _ _ n W H)|].
  split; [rewrite map_length, seq_length; reflexivity|reflexivity].
Qed.

Lemma window_points dt stop start n l i t : windowable dt stop start ->
  Rabs (v stop - v start - INR n * v dt) <= v dt / 4 ->
  fwindow dt stop start = Ok l -> nth_error l i = Some t ->
  fin t /\ Rabs (v t - (v start + INR i * v dt))
           <= 10 / 9007199254740992 * (INR i * (Rabs (v start) + v dt)).
Proof.
  intros W H E N. rewrite (window_ok _ _ _ n W H) in E. apply Ok_inj in E. subst l.
  apply nth_map_seq in N. destruct N as [L ->].
  pose proof (window_index _ _ _ _ W H). destruct W.
  apply point_err; auto. lia.
Qed.

Lemma window_closest dt stop start n l i t : windowable dt stop start -> v start = 0 ->
  Rabs (v stop - INR n * v dt) <= v dt / 4 ->
  fwindow dt stop start = Ok l -> nth_error l i = Some t ->
  fin t /\ closest t (INR i * v dt).
Proof.
  intros W Z H E N.
  assert (H' : Rabs (v stop - v start - INR n * v dt) <= v dt / 4) by (rewrite Z, Rminus_0_r; exact H).
  split; [apply (window_points _ _ _ _ _ _ _ W H' E N)|].
  rewrite (window_ok _ _ _ n W H') in E. apply Ok_inj in E. subst l.
  apply nth_map_seq in N. destruct N as [L ->].
  pose proof (window_index _ _ _ _ W H'). destruct W.
  apply rnd_closest, point_zero; auto. lia.
Qed.

Lemma window_steps dt stop start n l i t t' : windowable dt stop start ->
  Rabs (v stop - v start - INR n * v dt) <= v dt / 4 ->
  INR n * (Rabs (v start) + v dt) <= 281474976710656 * v dt ->
  fwindow dt stop start = Ok l -> nth_error l i = Some t -> nth_error l (S i) = Some t' ->
  v t < v t' /\
  Rabs (v (bsub t' t) - v dt) <= 24 / 9007199254740992 * (INR (S i) * (Rabs (v start) + v dt)).
Proof.
  intros W H HA E N N'. rewrite (window_ok _ _ _ n W H) in E. apply Ok_inj in E. subst l.
  apply nth_map_seq in N. apply nth_map_seq in N'. destruct N as [L ->], N' as [L' ->].
  pose proof (window_index _ _ _ _ W H). pose proof (proj2 (eta_small _ (w_step _ _ _ W))). destruct W.
  apply steps_near; auto; [lia|].
  eapply Rle_trans; [|exact HA]. apply Rmult_le_compat_r.
  - pose proof (Rabs_pos (v start)). lra.
  - apply le_INR. lia.
Qed.

Lemma window_zero_step dt stop start : is_zero dt = true ->
  fwindow dt stop start = Err ZeroDivisionError.
Proof. intros H. unfold fwindow, farange, arange_length. rewrite H. reflexivity. Qed.

Lemma last_point dt stop start n : windowable dt stop start -> v start = 0 -> (1 <= Z.of_nat n <= 2 ^ 40)%Z ->
  stop = bmul (of_Z (Z.of_nat n)) dt \/ v stop = INR n * v dt ->
  exists l, fwindow dt stop start = Ok l /\ length l = S n /\ nth_error l n = Some stop.
Proof.
  intros W Z Hn' A. assert (Hn : (1 <= n)%nat) by lia. destruct (eta_small _ (w_step _ _ _ W)) as [Eh Hd].
  assert (I1 : 1 <= INR n) by (change 1 with (INR 1); apply le_INR; exact Hn).
  assert (G : INR 1 * v dt <= INR n * v dt) by (apply Rmult_le_compat_r; [lra|apply le_INR; exact Hn]).
  change (INR 1) with 1 in G. rewrite Rmult_1_l in G.
  assert (V : v stop = rnd (INR n * v dt) /\ INR n * v dt <= 4398046511104 * v dt).
  { pose proof (w_stop_le _ _ _ W) as K. apply le_abs in K. unfold two40 in K.
    destruct A as [A|A].
    - destruct (of_Z_ok (Z.of_nat n)) as [Fi Vi]; [lia|]. rewrite <- INR_IZR_INZ in Vi.
      assert (Ln : (Z.of_nat n <= 2 ^ 42)%Z) by lia.
        assert (Im : INR n <= 4398046511104).
        { rewrite INR_IZR_INZ. apply IZR_le in Ln. exact Ln. }
        assert (Imd : INR n * v dt <= 4398046511104 * v dt) by (apply Rmult_le_compat_r; lra).
        pose proof (w_step _ _ _ W) as SS. set (d := v dt) in *.
        destruct (bmul_ok (of_Z (Z.of_nat n)) dt Fi (w_dt _ _ _ W)) as [_ V].
        { rewrite Vi. fold d. big_lin. }
        rewrite Vi in V. rewrite A. split; [exact V|exact Imd].
    - split; [|lra]. rewrite <- A. symmetry. apply rnd_v. }
  destruct V as [V Imd].
  assert (N := rnd_near (INR n * v dt) (INR n * v dt) _ ltac:(apply abs_le; lra) Eh).
  rewrite <- V in N. unfold uu in N.
  assert (H : Rabs (v stop - v start - INR n * v dt) <= v dt / 4).
  { rewrite Z. apply abs_le. lra. }
  pose proof (window_index _ _ _ _ W H) as Hi.
  eexists. split; [apply (window_ok _ _ _ n W H)|].
  split; [rewrite map_length, seq_length; reflexivity|].
  rewrite nth_error_map, (nth_error_nth' _ 0%nat) by (rewrite seq_length; lia).
  rewrite seq_nth by lia. cbn [option_map plus]. f_equal.
  pose proof (point_zero dt start n (w_dt _ _ _ W) (w_start _ _ _ W) Z (w_step _ _ _ W) ltac:(lia)) as P.
  apply B2R_inj.
  - apply is_finite_strict_B2R. rewrite P, <- V. lra.
  - apply is_finite_strict_B2R. lra.
  - rewrite P, V. reflexivity.
Qed.

Section Saved.
  Context {S TR : Type}.
  Variable scheme : TR -> b64 -> S -> b64 -> res S.
  Variable trend : TR.

  Lemma saved_keys l u0 t tr : fforecast scheme trend l u0 (SFloat t) = Ok tr ->
    (In t l -> dkeys tr = [t]) /\ (~ In t l -> dkeys tr = []).
  Proof.
    intros H. destruct (forecast_keys_full b64_dec bsub scheme trend l u0 (SFloat t) tr H [t]) as [_ [ND K]].
    { intros x. simpl. intuition. }
    assert (A : forall x, In x (dkeys tr) -> x = t) by (intros x Hx; apply K in Hx; apply Hx).
    split.
    - intros I. assert (It : In t (dkeys tr)) by (apply K; split; [exact I|reflexivity]).
      destruct (dkeys tr) as [|a [|b r]]; [contradiction| |].
      + f_equal. apply A. left; reflexivity.
      + exfalso. inversion ND as [|? ? N _]; subst. apply N.
        rewrite (A a), <- (A b); [left; reflexivity|right; left; reflexivity|left; reflexivity].
    - intros N. destruct (dkeys tr) as [|a r] eqn:E; [reflexivity|]. exfalso. apply N.
      assert (I : In a (dkeys tr)) by (rewrite E; left; reflexivity).
      rewrite <- (A a) by (left; reflexivity). rewrite E in I. apply K. left. reflexivity.
  Qed.
End Saved.
