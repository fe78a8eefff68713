(** One step of the schemes on arrays of a periodic line, for the trend - u D_x u + mu D_x^2 u - eta D_x^4 u:
    the error after the step against the error before. *)
From Coq Require Import List Arith ZArith Bool Reals Lia Lra Permutation FunctionalExtensionality Psatz.
From Verif Require Import PyBase Scalars FieldFacts FDReal SchemesModel SchemesSpec LineSpec LineProofs LineConv LineMoreProofs LineMoreForecast LineEnergy.
Import ListNotations.
Open Scope R_scope.

Section Step.
  Variables (n : nat) (h mu eta dt : R).
  Hypothesis (Hh : 0 < h) (He : 0 <= eta) (Hdt : 0 <= dt) (Stable : dt * stiff h mu eta <= 1).
  Notation nr := (nr n). Notation lin := (lin n h mu eta). Notation dp := (dp n h). Notation eul := (eul n h mu eta dt).
  Notation q U := (nr (dp U)).
  Definition zz (U : nat -> R) (j : nat) : R := dt * lin U j.
  Lemma zz_bound U : nr (zz U) <= nr U.
  Proof. exact (z_bound n h Hh mu eta He dt Hdt Stable U). Qed.
  Lemma zz_slope U : q (zz U) <= q U.
  Proof. exact (z_slope n h Hh mu eta He dt Hdt Stable U). Qed.
  Lemma zz_add3 U c V W j : zz (fun i => U i + c * V i + W i) j = zz U j + c * zz V j + zz W j.
  Proof. unfold zz, LineEnergy.lin, d2, d4, Rdiv. ring. Qed.
  Lemma zz_ext U V j : (forall i, (i < n)%nat -> U i = V i) -> (j < n)%nat -> zz U j = zz V j.
  Proof. intros E Hj. unfold zz. f_equal. apply lin_ext; auto. Qed.
  Lemma zz_of U V c W G : (forall i, (i < n)%nat -> U i = V i + c * W i + G i) ->
    forall j, (j < n)%nat -> zz U j = zz V j + c * zz W j + zz G j.
  Proof. intros E j Hj. rewrite (zz_ext U (fun i => V i + c * W i + G i)) by auto. apply zz_add3. Qed.

  (** the step of a scheme of the linear part, an average of explicit steps *)
  Definition pol s (U : nat -> R) (j : nat) : R :=
    match s with
    | SEuler => eul U j
    | SRk2 => 1 / 2 * U j + 1 / 2 * eul (eul U) j
    | SRk4 => 3 / 8 * U j + 1 / 3 * eul U j + 1 / 4 * eul (eul U) j + 1 / 24 * eul (eul (eul (eul U))) j
    end.
  Lemma eul_zz U j : eul U j = U j + zz U j. Proof. reflexivity. Qed.
  Lemma zz_eul U j : zz (eul U) j = eul (zz U) j.
  Proof.
    rewrite (eul_zz (zz U)). unfold LineEnergy.eul. fold (zz U).
    transitivity (zz (fun i => U i + 1 * zz U i + 0 * U i) j).
    - f_equal. apply functional_extensionality. intros i. unfold zz. ring.
    - rewrite (zz_add3 U 1 (zz U) (fun i => 0 * U i)). replace (zz (fun i => 0 * U i) j) with 0; [ring|].
      unfold zz, LineEnergy.lin, d2, d4, Rdiv. ring.
  Qed.
  Lemma zz_eul_f U : zz (eul U) = eul (zz U).
  Proof. apply functional_extensionality. intros j. apply zz_eul. Qed.
  Lemma eul_2 U j : eul (eul U) j = U j + 2 * zz U j + zz (zz U) j.
  Proof. rewrite (eul_zz (eul U)), zz_eul_f, !eul_zz. ring. Qed.
  Lemma eul_4 U j : eul (eul (eul (eul U))) j = U j + 4 * zz U j + 6 * zz (zz U) j + 4 * zz (zz (zz U)) j + zz (zz (zz (zz U))) j.
  Proof.
    rewrite (eul_zz (eul (eul (eul U)))), !zz_eul_f. rewrite (eul_zz (eul (eul U))), (eul_zz (eul (eul (zz U)))), !zz_eul_f, !eul_2. ring.
  Qed.

  Lemma nr_add' (A B : nat -> R) a b : nr A <= a -> nr B <= b -> nr (fun j => A j + B j) <= a + b.
  Proof. intros. eapply Rle_trans; [apply nr_add|]. lra. Qed.
  Lemma nr_scale' c (A : nat -> R) a : 0 <= c -> nr A <= a -> nr (fun j => c * A j) <= c * a.
  Proof. intros Hc H. rewrite nr_scale, Rabs_pos_eq by auto. nra. Qed.
  Lemma zz_le A a : nr A <= a -> nr (zz A) <= a.
  Proof. intros. eapply Rle_trans; [apply zz_bound|auto]. Qed.

  Lemma rk4_unroll (e e2 e3 e4 e' g1 g2 g3 g' : nat -> R) :
    (forall j, (j < n)%nat -> e2 j = e j + 1 / 2 * zz e j + g1 j) ->
    (forall j, (j < n)%nat -> e3 j = e j + 1 / 2 * zz e2 j + g2 j) ->
    (forall j, (j < n)%nat -> e4 j = e j + 1 * zz e3 j + g3 j) ->
    (forall j, (j < n)%nat -> e' j = e j + (zz e j + 2 * zz e2 j + 2 * zz e3 j + zz e4 j) / 6 + g' j) ->
    nr e' <= nr (pol SRk4 e) + (nr g1 + nr g2 + nr g3 + nr g').
  Proof.
    intros H2 H3 H4 H'.
    assert (A2 := zz_of _ _ _ _ _ H2). assert (B2 := zz_of _ _ _ _ _ A2). assert (C2 := zz_of _ _ _ _ _ B2).
    assert (A3 := zz_of _ _ _ _ _ H3). assert (B3 := zz_of _ _ _ _ _ A3).
    assert (A4 := zz_of _ _ _ _ _ H4).
    rewrite (nr_ext n e' (fun j => pol SRk4 e j + (((1 / 3 * zz g1 j + (1 / 6 * zz (zz g1) j + 1 / 12 * zz (zz (zz g1)) j))
       + (1 / 3 * zz g2 j + 1 / 6 * zz (zz g2) j)) + 1 / 6 * zz g3 j + g' j))).
    2:{ intros j Hj. rewrite H' by auto. rewrite A4, B3, C2, A3, B2, A2 by auto. unfold pol. rewrite eul_4, eul_2, eul_zz. field. }
    pose proof (nr_pos n g1). pose proof (nr_pos n g2). pose proof (nr_pos n g3).
    eapply Rle_trans.
    - apply (nr_add' (pol SRk4 e) _ (nr (pol SRk4 e)) ((((1 / 3 * nr g1 + (1 / 6 * nr g1 + 1 / 12 * nr g1)) + (1 / 3 * nr g2 + 1 / 6 * nr g2)) + 1 / 6 * nr g3) + nr g')); [lra|].
      repeat first [apply nr_add'|apply nr_scale'; [lra|]|apply zz_le|apply Rle_refl].
    - lra.
  Qed.
  Lemma rk2_unroll (e e2 e' g1 g' : nat -> R) :
    (forall j, (j < n)%nat -> e2 j = e j + 1 / 2 * zz e j + g1 j) ->
    (forall j, (j < n)%nat -> e' j = e j + 1 * zz e2 j + g' j) ->
    nr e' <= nr (pol SRk2 e) + (nr g1 + nr g').
  Proof.
    intros H2 H'. assert (A2 := zz_of _ _ _ _ _ H2).
    rewrite (nr_ext n e' (fun j => pol SRk2 e j + (zz g1 j + g' j))).
    2:{ intros j Hj. rewrite H' by auto. rewrite A2 by auto. unfold pol. rewrite eul_2. field. }
    apply (nr_add' (pol SRk2 e) _); [lra|]. apply nr_add'; [apply zz_le|]; lra.
  Qed.
  Lemma euler_unroll (e e' g' : nat -> R) :
    (forall j, (j < n)%nat -> e' j = e j + 1 * zz e j + g' j) -> nr e' <= nr (pol SEuler e) + nr g'.
  Proof.
    intros H'. rewrite (nr_ext n e' (fun j => pol SEuler e j + g' j)); [apply nr_add|].
    intros j Hj. rewrite H' by auto. unfold pol. rewrite eul_zz. ring.
  Qed.

  (** the linear step loses energy *)
  Variables (nu C0 : R).
  Hypothesis (Hnu : 0 < nu) (HC0 : 0 <= C0).
  Hypothesis Dis : forall U, nr (eul U) ^ 2 <= (1 + C0 * dt) * nr U ^ 2 - nu * dt * q U ^ 2.
  Lemma eul_grow U : nr (eul U) ^ 2 <= (1 + C0 * dt) * nr U ^ 2.
  Proof. pose proof (Dis U). assert (0 <= nu * dt * q U ^ 2) by (apply Rmult_le_pos; [nra|apply pow2_ge_0]). lra. Qed.
  Lemma pol_energy s U : nr (pol s U) ^ 2 <= (1 + C0 * dt) ^ 4 * nr U ^ 2 - nu / 2 * dt * q U ^ 2.
  Proof.
    set (m := 1 + C0 * dt). assert (Hm : 1 <= m) by (unfold m; nra).
    set (a0 := nr U ^ 2). set (d := nu * dt * q U ^ 2).
    assert (Pa : 0 <= a0) by apply pow2_ge_0.
    assert (Pd : 0 <= d) by (unfold d; apply Rmult_le_pos; [nra|apply pow2_ge_0]).
    pose proof (Dis U) as D1. fold m a0 d in D1.
    pose proof (eul_grow (eul U)) as D2. pose proof (eul_grow (eul (eul U))) as D3. pose proof (eul_grow (eul (eul (eul U)))) as D4.
    fold m in D2, D3, D4.
    set (x1 := nr (eul U)) in *. set (x2 := nr (eul (eul U))) in *. set (x3 := nr (eul (eul (eul U)))) in *. set (x4 := nr (eul (eul (eul (eul U))))) in *.
    assert (M2 : 1 <= m ^ 2) by nra. assert (M3 : 1 <= m ^ 3) by (replace (m ^ 3) with (m * m ^ 2) by ring; nra).
    assert (M12 : m <= m ^ 4) by (replace (m ^ 4) with (m * m ^ 3) by ring; nra).
    assert (M22 : m ^ 2 <= m ^ 4) by (replace (m ^ 4) with (m ^ 2 * m ^ 2) by ring; nra).
    assert (E1 : x1 ^ 2 <= m ^ 4 * a0 - d). { assert (m * a0 <= m ^ 4 * a0) by (apply Rmult_le_compat_r; auto). lra. }
    assert (E2 : x2 ^ 2 <= m ^ 4 * a0 - d).
    { apply Rle_trans with (m * (m * a0 - d)); [apply Rle_trans with (m * x1 ^ 2); [lra|apply Rmult_le_compat_l; lra]|].
      assert (m ^ 2 * a0 <= m ^ 4 * a0) by (apply Rmult_le_compat_r; auto). nra. }
    assert (E4 : x4 ^ 2 <= m ^ 4 * a0 - d).
    { assert (x4 ^ 2 <= m ^ 3 * x1 ^ 2).
      { apply Rle_trans with (m * x3 ^ 2); [lra|]. apply Rle_trans with (m * (m * x2 ^ 2)); [apply Rmult_le_compat_l; lra|].
        apply Rle_trans with (m * (m * (m * x1 ^ 2))); [apply Rmult_le_compat_l; [lra|]; apply Rmult_le_compat_l; lra|]. right. ring. }
      assert (m ^ 3 * x1 ^ 2 <= m ^ 3 * (m * a0 - d)) by (apply Rmult_le_compat_l; lra).
      assert (m ^ 3 * (m * a0 - d) = m ^ 4 * a0 - m ^ 3 * d) by ring. assert (1 * d <= m ^ 3 * d) by (apply Rmult_le_compat_r; lra). lra. }
    assert (E0 : a0 <= m ^ 4 * a0) by (assert (1 * a0 <= m ^ 4 * a0) by (apply Rmult_le_compat_r; lra); lra).
    pose proof (nr_pos n (pol s U)) as P0. set (a := nr U) in *. unfold a0 in *.
    assert (Pa' : 0 <= a) by apply nr_pos. assert (P1 : 0 <= x1) by apply nr_pos. assert (P2 : 0 <= x2) by apply nr_pos. assert (P4 : 0 <= x4) by apply nr_pos.
    replace (nu / 2 * dt * q U ^ 2) with (d / 2) by (unfold d; field).
    destruct s.
    - change (pol SEuler U) with (eul U). fold x1. lra.
    - assert (nr (pol SRk2 U) <= 1 / 2 * a + 1 / 2 * x2).
      { apply (nr_add' (fun j => 1 / 2 * U j) (fun j => 1 / 2 * eul (eul U) j)); apply nr_scale'; lra || apply Rle_refl. }
      assert (nr (pol SRk2 U) ^ 2 <= (1 / 2 * a + 1 / 2 * x2) ^ 2) by nra.
      assert ((1 / 2 * a + 1 / 2 * x2) ^ 2 <= 1 / 2 * a ^ 2 + 1 / 2 * x2 ^ 2) by (pose proof (pow2_ge_0 (a - x2)); nra). lra.
    - assert (nr (pol SRk4 U) <= 3 / 8 * a + 1 / 3 * x1 + 1 / 4 * x2 + 1 / 24 * x4).
      { repeat apply (nr_add' (fun j => _ )); apply nr_scale'; lra || apply Rle_refl. }
      assert (nr (pol SRk4 U) ^ 2 <= (3 / 8 * a + 1 / 3 * x1 + 1 / 4 * x2 + 1 / 24 * x4) ^ 2) by (apply pow_incr; lra).
      assert ((3 / 8 * a + 1 / 3 * x1 + 1 / 4 * x2 + 1 / 24 * x4) ^ 2 <= 3 / 8 * a ^ 2 + 1 / 3 * x1 ^ 2 + 1 / 4 * x2 ^ 2 + 1 / 24 * x4 ^ 2).
      { pose proof (pow2_ge_0 (a - x1)). pose proof (pow2_ge_0 (a - x2)). pose proof (pow2_ge_0 (a - x4)). pose proof (pow2_ge_0 (x1 - x2)).
        pose proof (pow2_ge_0 (x1 - x4)). pose proof (pow2_ge_0 (x2 - x4)). nra. }
      lra.
  Qed.
  Lemma pol_bound s U : nr (pol s U) <= 3 * nr U.
  Proof.
    assert (E : forall V a, nr V <= a -> nr (eul V) <= 2 * a).
    { intros V a H. replace (2 * a) with (a + a) by ring. apply (nr_add' V (zz V)); [|apply zz_le]; auto. }
    set (a := nr U). assert (Pa : 0 <= a) by apply nr_pos. assert (H0 : nr U <= a) by (unfold a; lra).
    pose proof (E _ _ H0) as H1. pose proof (E _ _ H1) as H2. pose proof (E _ _ H2) as H3. pose proof (E _ _ H3) as H4.
    destruct s.
    - change (nr (eul U) <= 3 * a). lra.
    - eapply Rle_trans; [apply (nr_add' (fun j => 1 / 2 * U j) (fun j => 1 / 2 * eul (eul U) j) (1 / 2 * a) (1 / 2 * (2 * (2 * a)))); apply nr_scale'; lra|]. lra.
    - eapply Rle_trans; [apply (nr_add' (fun j => 3 / 8 * U j + 1 / 3 * eul U j + 1 / 4 * eul (eul U) j) (fun j => 1 / 24 * eul (eul (eul (eul U))) j)
        ((3 / 8 * a + 1 / 3 * (2 * a)) + 1 / 4 * (2 * (2 * a))) (1 / 24 * (2 * (2 * (2 * (2 * a)))))); [|apply nr_scale'; lra]|lra].
      apply (nr_add' (fun j => 3 / 8 * U j + 1 / 3 * eul U j) (fun j => 1 / 4 * eul (eul U) j)); [|apply nr_scale'; lra].
      apply (nr_add' (fun j => 3 / 8 * U j) (fun j => 1 / 3 * eul U j)); apply nr_scale'; lra.
  Qed.

  (** the trend, and its difference from the trend of a reference *)
  Definition full (U : nat -> R) (j : nat) : R := - U j * d1 n h U j + lin U j.
  Definition rest (v w : nat -> R) (j : nat) : R := - (v j * d1 n h w j + w j * d1 n h v j + w j * d1 n h w j).
  Lemma full_ext U V j : (forall i, (i < n)%nat -> U i = V i) -> (j < n)%nat -> full U j = full V j.
  Proof.
    intros E Hj. unfold full. rewrite (lin_ext n h mu eta U V) by auto. unfold d1. rewrite !E by (auto using shift_lt). reflexivity.
  Qed.
  Lemma full_diff U v j : full U j - full v j = lin (fun i => U i - v i) j + rest v (fun i => U i - v i) j.
  Proof. unfold full, rest, LineEnergy.lin, d1, d2, d4, Rdiv. ring. Qed.

  Variables (M T : R).
  Hypothesis (HM : 0 <= M) (HT : 0 <= T).
  Notation K := (M + 1).
  Notation T' := (T * sqrt (INR n)).
  Definition tame (v : nat -> R) : Prop := forall j, (j < n)%nat -> Rabs (v j) <= M /\ Rabs (d1 n h v j) <= M.
  Lemma T'_pos : 0 <= T'. Proof. apply Rmult_le_pos; auto. apply sqrt_pos. Qed.

  Lemma rest_bound v w : tame v -> nr w <= 1 -> nr (rest v w) <= K * (q w + nr w).
  Proof.
    intros Hv Hw. pose proof (nr_pos n w) as Pw. pose proof (nr_pos n (dp w)) as Pq. pose proof (d1_bound n h Hh w) as D.
    rewrite (nr_ext n (rest v w) (fun j => (-1) * ((v j * d1 n h w j + d1 n h v j * w j) + w j * d1 n h w j))) by (intros; unfold rest; ring).
    rewrite nr_scale. replace (Rabs (-1)) with 1 by (rewrite Rabs_left; lra). rewrite Rmult_1_l.
    apply Rle_trans with ((M * nr (d1 n h w) + M * nr w) + 1 * nr (d1 n h w)).
    - apply (nr_add' (fun j => v j * d1 n h w j + d1 n h v j * w j) (fun j => w j * d1 n h w j)).
      + apply (nr_add' (fun j => v j * d1 n h w j) (fun j => d1 n h v j * w j)); apply nr_mult; auto; intros j Hj; apply Hv; auto.
      + apply nr_mult; [lra|]. intros j Hj. apply Rle_trans with (nr w); [apply nr_entry; auto|exact Hw].
    - assert (M * nr (d1 n h w) <= M * q w) by (apply Rmult_le_compat_l; auto). nra.
  Qed.

  (** the terms other than the linear ones, [c] times the trend being added at the stage with the defect [x] *)
  Definition perturb (c : R) (v w x : nat -> R) (j : nat) : R := c * dt * rest v w j - x j.
  Definition size (w : nat -> R) : R := K * (q w + nr w) + T'.
  Lemma perturb_bound c v w x : 0 <= c <= 1 -> tame v -> nr w <= 1 -> (forall j, (j < n)%nat -> Rabs (x j) <= dt * T) ->
    nr (perturb c v w x) <= dt * size w.
  Proof.
    intros Hc Hv Hw Hx. pose proof (rest_bound v w Hv Hw) as B. pose proof (nr_pos n w) as Pw. pose proof (nr_pos n (dp w)) as Pq.
    eapply Rle_trans; [apply (nr_sub n (fun j => c * dt * rest v w j) x)|].
    rewrite nr_scale, Rabs_pos_eq by nra. pose proof (nr_const n (dt * T) x ltac:(nra) Hx) as X.
    unfold size. assert (c * dt * nr (rest v w) <= dt * (K * (q w + nr w))).
    { apply Rle_trans with (1 * dt * nr (rest v w)); [apply Rmult_le_compat_r; [apply nr_pos|nra]|]. rewrite Rmult_1_l. apply Rmult_le_compat_l; auto. }
    lra.
  Qed.

  Hypothesis (Small1 : dt <= 1) (Small2 : dt * K <= 1) (Small3 : dt * K * (2 / h) <= 1).
  Lemma size_pos w : 0 <= size w.
  Proof. unfold size. pose proof (nr_pos n w). pose proof (nr_pos n (dp w)). pose proof T'_pos. nra. Qed.
  Lemma stage_norm c e w g y : 0 <= c <= 1 -> nr g <= dt * size w -> (forall j, (j < n)%nat -> y j = e j + c * zz w j + g j) ->
    nr y <= nr e + 3 * nr w + T'.
  Proof.
    intros Hc Hg Hy. rewrite (nr_ext n y (fun j => e j + c * zz w j + g j)) by auto.
    pose proof (nr_pos n w) as Pw. pose proof (nr_pos n (dp w)) as Pq. pose proof T'_pos as PT. pose proof (dp_bound n h Hh w) as B.
    assert (Sz : dt * size w <= 2 * nr w + T').
    { unfold size. replace (dt * (K * (q w + nr w) + T')) with (dt * K * q w + dt * K * nr w + dt * T') by ring.
      assert (dt * K * q w <= 1 * nr w).
      { apply Rle_trans with (dt * K * (2 / h * nr w)); [apply Rmult_le_compat_l; nra|]. rewrite <- Rmult_assoc. apply Rmult_le_compat_r; auto. }
      assert (dt * K * nr w <= 1 * nr w) by (apply Rmult_le_compat_r; auto). assert (dt * T' <= 1 * T') by (apply Rmult_le_compat_r; auto). lra. }
    apply Rle_trans with ((nr e + c * nr w) + (2 * nr w + T')).
    - apply (nr_add' (fun j => e j + c * zz w j) g); [|lra]. apply (nr_add' e (fun j => c * zz w j)); [lra|]. apply nr_scale'; [lra|apply zz_bound].
    - nra.
  Qed.
  Lemma stage_slope c e w g y : 0 <= c <= 1 -> nr g <= dt * size w -> (forall j, (j < n)%nat -> y j = e j + c * zz w j + g j) ->
    q y <= q e + 2 * q w + nr w + T'.
  Proof.
    intros Hc Hg Hy. pose proof (inv_h h Hh) as Ih.
    rewrite (nr_ext n (dp y) (fun j => dp e j + c * dp (zz w) j + dp g j)).
    2:{ intros j Hj. rewrite (dp_ext n h y (fun j => e j + c * zz w j + g j)) by auto. unfold LineEnergy.dp, Rdiv. ring. }
    pose proof (nr_pos n w) as Pw. pose proof (nr_pos n (dp w)) as Pq. pose proof T'_pos as PT. pose proof (dp_bound n h Hh g) as B.
    assert (Sz : q g <= q w + nr w + T').
    { eapply Rle_trans; [exact B|]. apply Rle_trans with (2 / h * (dt * size w)); [apply Rmult_le_compat_l; auto; unfold Rdiv; lra|].
      unfold size. replace (2 / h * (dt * (K * (q w + nr w) + T'))) with (dt * K * (2 / h) * (q w + nr w) + dt * (2 / h) * T') by ring.
      assert (dt * K * (2 / h) * (q w + nr w) <= 1 * (q w + nr w)) by (apply Rmult_le_compat_r; lra).
      assert (S3 : dt * (2 / h) <= 1).
      { eapply Rle_trans; [|exact Small3]. apply Rmult_le_compat_r; [unfold Rdiv; lra|]. nra. }
      assert (dt * (2 / h) * T' <= 1 * T') by (apply Rmult_le_compat_r; auto). lra. }
    apply Rle_trans with ((q e + c * q w) + (q w + nr w + T')).
    - apply (nr_add' (fun j => dp e j + c * dp (zz w) j) (dp g)); [|exact Sz]. apply (nr_add' (dp e) (fun j => c * dp (zz w) j)); [lra|].
      apply nr_scale'; [lra|apply zz_slope].
    - nra.
  Qed.

  (** the linear step plus perturbations *)
  Definition Kg : R := 200 * K.
  Definition growth : R := 3 * nu / 4 + 36 * Kg ^ 2 / nu + 10 * Kg + ((1 + C0) ^ 4 - 1).
  Hypothesis Small4 : 12 * Kg ^ 2 * dt <= nu.
  Lemma pow4_grow x : 0 <= x -> (1 + x * dt) ^ 4 <= 1 + ((1 + x) ^ 4 - 1) * dt.
  Proof.
    intros Hx. replace ((1 + x * dt) ^ 4) with (1 + (4 * x + 6 * x ^ 2 * dt + 4 * x ^ 3 * dt ^ 2 + x ^ 4 * dt ^ 3) * dt) by ring.
    apply Rplus_le_compat_l. apply Rmult_le_compat_r; auto.
    replace ((1 + x) ^ 4 - 1) with (4 * x + 6 * x ^ 2 * 1 + 4 * x ^ 3 * 1 + x ^ 4 * 1) by ring.
    assert (dt ^ 2 <= 1) by nra. assert (dt ^ 3 <= 1) by (replace (dt ^ 3) with (dt * dt ^ 2) by ring; nra).
    assert (0 <= x ^ 2) by (apply pow_le; auto). assert (0 <= x ^ 3) by (apply pow_le; auto). assert (0 <= x ^ 4) by (apply pow_le; auto).
    repeat apply Rplus_le_compat; try lra; apply Rmult_le_compat_l; lra.
  Qed.
  Lemma step_energy s e e' G : nr e' <= nr (pol s e) + dt * G -> 0 <= G -> G <= Kg * (q e + nr e + T') ->
    nr e' ^ 2 <= (1 + growth * dt) * nr e ^ 2 + growth * dt * T' ^ 2.
  Proof.
    intros H PG HG. pose proof (pol_energy s e) as E. pose proof (pol_bound s e) as B.
    pose proof (pow4_grow C0 HC0) as P4. pose proof (nr_pos n e') as Pe'. pose proof (nr_pos n (pol s e)) as Pp. pose proof (nr_pos n e) as Pa.
    pose proof (nr_pos n (dp e)) as Pq. pose proof T'_pos as PT.
    set (a := nr e) in *. set (b := nr (pol s e)) in *. set (s' := q e) in *. set (tt := T') in *.
    assert (PK : 0 <= Kg) by (unfold Kg; lra).
    assert (S1 : nr e' ^ 2 <= (b + dt * G) ^ 2) by (apply pow_incr; lra).
    assert (X1 : b * G <= 3 * a * (Kg * (s' + a + tt))) by (apply Rmult_le_compat; lra).
    assert (X2 : G ^ 2 <= Kg ^ 2 * (3 * (s' ^ 2 + a ^ 2 + tt ^ 2))).
    { apply Rle_trans with ((Kg * (s' + a + tt)) ^ 2); [apply pow_incr; lra|]. rewrite Rpow_mult_distr. apply Rmult_le_compat_l; [apply pow2_ge_0|].
      pose proof (pow2_ge_0 (s' - a)). pose proof (pow2_ge_0 (s' - tt)). pose proof (pow2_ge_0 (a - tt)). nra. }
    assert (X3 : dt * G ^ 2 <= nu / 4 * (s' ^ 2 + a ^ 2 + tt ^ 2)).
    { apply Rle_trans with (dt * (Kg ^ 2 * (3 * (s' ^ 2 + a ^ 2 + tt ^ 2)))); [apply Rmult_le_compat_l; auto|].
      replace (dt * (Kg ^ 2 * (3 * (s' ^ 2 + a ^ 2 + tt ^ 2)))) with ((12 * Kg ^ 2 * dt) / 4 * (s' ^ 2 + a ^ 2 + tt ^ 2)) by field.
      apply Rmult_le_compat_r; [|lra]. pose proof (pow2_ge_0 s'). pose proof (pow2_ge_0 a). pose proof (pow2_ge_0 tt). lra. }
    assert (X4 : 6 * a * Kg * s' <= nu / 4 * s' ^ 2 + 36 * Kg ^ 2 / nu * a ^ 2).
    { assert (0 <= (nu * s' / 2 - 6 * Kg * a) ^ 2 / nu) by (apply Rmult_le_pos; [apply pow2_ge_0|left; apply Rinv_0_lt_compat; auto]).
      replace ((nu * s' / 2 - 6 * Kg * a) ^ 2 / nu) with (nu / 4 * s' ^ 2 + 36 * Kg ^ 2 / nu * a ^ 2 - 6 * a * Kg * s') in H0 by (field; lra). lra. }
    assert (X5 : 6 * a * Kg * tt <= 3 * Kg * (a ^ 2 + tt ^ 2)).
    { pose proof (pow2_ge_0 (a - tt)). assert (0 <= Kg * (a - tt) ^ 2) by (apply Rmult_le_pos; auto). nra. }
    assert (X6 : 2 * (b * G) + dt * G ^ 2 <= nu / 2 * s' ^ 2 + (36 * Kg ^ 2 / nu + 9 * Kg + nu / 4) * a ^ 2 + (3 * Kg + nu / 4) * tt ^ 2) by nra.
    assert (X7 : dt * (2 * (b * G) + dt * G ^ 2) <= dt * (nu / 2 * s' ^ 2 + (36 * Kg ^ 2 / nu + 9 * Kg + nu / 4) * a ^ 2 + (3 * Kg + nu / 4) * tt ^ 2)) by (apply Rmult_le_compat_l; auto).
    assert (X8 : (1 + C0 * dt) ^ 4 * a ^ 2 <= (1 + ((1 + C0) ^ 4 - 1) * dt) * a ^ 2) by (apply Rmult_le_compat_r; auto; apply pow2_ge_0).
    assert (PI : 0 <= Kg ^ 2 / nu) by (apply Rmult_le_pos; [apply pow2_ge_0|left; apply Rinv_0_lt_compat; auto]).
    assert (PC : 0 <= (1 + C0) ^ 4 - 1) by (assert (1 ^ 4 <= (1 + C0) ^ 4) by (apply pow_incr; lra); lra).
    assert (X9 : dt * ((3 * Kg + nu / 4) * tt ^ 2) <= growth * dt * tt ^ 2).
    { rewrite <- Rmult_assoc. apply Rmult_le_compat_r; [apply pow2_ge_0|]. rewrite Rmult_comm. apply Rmult_le_compat_r; auto. unfold growth. lra. }
    assert (X10 : (1 + ((1 + C0) ^ 4 - 1) * dt) * a ^ 2 + dt * ((36 * Kg ^ 2 / nu + 9 * Kg + nu / 4) * a ^ 2) <= (1 + growth * dt) * a ^ 2).
    { replace ((1 + ((1 + C0) ^ 4 - 1) * dt) * a ^ 2 + dt * ((36 * Kg ^ 2 / nu + 9 * Kg + nu / 4) * a ^ 2)) with
        ((1 + ((((1 + C0) ^ 4 - 1) + (36 * Kg ^ 2 / nu + 9 * Kg + nu / 4)) * dt)) * a ^ 2) by ring.
      apply Rmult_le_compat_r; [apply pow2_ge_0|]. apply Rplus_le_compat_l. apply Rmult_le_compat_r; auto. unfold growth. lra. }
    replace ((b + dt * G) ^ 2) with (b ^ 2 + dt * (2 * (b * G) + dt * G ^ 2)) in S1 by ring.
    lra.
  Qed.
End Step.
