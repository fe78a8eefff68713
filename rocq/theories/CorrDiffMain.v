From Coq Require Import Reals Lra Lia Arith.
From Verif Require Import CorrModel CorrSpec CorrProofs CorrDiffModel CorrDiffProofs CorrProps.
Open Scope R_scope.

Lemma inverting_1 : inverting 1 (fun m _ _ => / m 0%nat 0%nat).
Proof.
  intros a b [R _]. pose proof (R 0 0 ltac:(lia) ltac:(lia))%nat as A. cbn in A. unfold delta in A. cbn in A.
  intros [|i] [|j] Hi Hj; try lia. cbn. unfold delta. cbn. field. intros E. rewrite E in A. lra.
Qed.
Lemma bounds_1 s x y : (forall z, 0 < s z 0%nat 0%nat) ->
  0 < correlation 1 (fun m _ _ => / m 0%nat 0%nat) (fun m => m 0%nat 0%nat) s x y <= 1.
Proof.
  intros H. pose proof (H x) as Hx. pose proof (H y) as Hy.
  apply (correlation_bounds 1 _ _ inverting_1 s x y (fun _ _ => / (s x 0%nat 0%nat + s y 0%nat 0%nat))); auto.
  - unfold mscale, madd. lra.
  - unfold mscale, madd. apply mean1; assumption.
  - split; intros [|i] [|j] Hi Hj; try lia; cbn; unfold delta, madd; cbn; field; lra.
  - intros v. unfold quad. cbn. pose proof (Rle_0_sqr (v 0%nat)) as S. unfold Rsqr in S. assert (0 <= s x 0%nat 0%nat * (v 0%nat * v 0%nat)) by (apply Rmult_le_pos; lra). lra.
  - intros v. unfold quad. cbn. pose proof (Rle_0_sqr (v 0%nat)) as S. unfold Rsqr in S. assert (0 <= s y 0%nat 0%nat * (v 0%nat * v 0%nat)) by (apply Rmult_le_pos; lra). lra.
Qed.
Lemma inverses_2 (m : matrix) : det2 m <> 0 -> inverses 2 m (inv2 m).
Proof.
  intros N. unfold det2 in N. split; intros [|[|i]] [|[|j]] Hi Hj; try lia; cbn; unfold inv2, delta; cbn; field; exact N.
Qed.
Lemma bounds_2 inv : inverting 2 inv -> forall s x y,
  (forall z, 0 < s z 0%nat 0%nat /\ s z 0%nat 1%nat = s z 1%nat 0%nat /\ 0 < det2 (s z)) ->
  0 < correlation 2 inv det2 s x y <= 1.
Proof.
  intros Hinv s x y H. destruct (H x) as (X1 & X2 & X3). destruct (H y) as (Y1 & Y2 & Y3).
  pose proof (mean2 (s x 0 0)%nat (s x 1 0)%nat (s x 1 1)%nat (s y 0 0)%nat (s y 1 0)%nat (s y 1 1)%nat X1 Y1) as G.
  assert (GX : det2 (s x) = s x 0%nat 0%nat * s x 1%nat 1%nat - s x 1%nat 0%nat * s x 1%nat 0%nat) by (unfold det2; rewrite X2; ring).
  assert (GY : det2 (s y) = s y 0%nat 0%nat * s y 1%nat 1%nat - s y 1%nat 0%nat * s y 1%nat 0%nat) by (unfold det2; rewrite Y2; ring).
  rewrite GX in X3. rewrite GY in Y3. specialize (G X3 Y3). cbv zeta in G. destruct G as [G1 G2].
  assert (GM : det2 (mscale (/ 2) (madd (s x) (s y))) = / 2 * (s x 0%nat 0%nat + s y 0%nat 0%nat) * (/ 2 * (s x 1%nat 1%nat + s y 1%nat 1%nat))
     - / 2 * (s x 1%nat 0%nat + s y 1%nat 0%nat) * (/ 2 * (s x 1%nat 0%nat + s y 1%nat 0%nat))) by (unfold det2, mscale, madd; rewrite X2, Y2; ring).
  apply (correlation_bounds 2 inv det2 Hinv s x y (inv2 (madd (s x) (s y)))).
  - rewrite GX. exact X3. - rewrite GY. exact Y3. - rewrite GM. exact G1. - rewrite GM, GX, GY. exact G2.
  - apply inverses_2. assert (D : det2 (mscale (/ 2) (madd (s x) (s y))) = / 4 * det2 (madd (s x) (s y))) by (unfold det2, mscale; field).
    rewrite GM in D. lra.
  - intros v. apply psd2; [exact X1|rewrite GX; exact X3|exact X2].
  - intros v. apply psd2; [exact Y1|rewrite GY; exact Y3|exact Y2].
Qed.
Lemma loc_not_symmetric : exists n g x y, (forall z v, 0 < v 0%nat -> 0 < quad n (g z) v) /\ loc_metric n g x y <> loc_metric n g y x.
Proof.
  exists 1%nat, (fun z _ _ => exp (z 0%nat)), (fun _ => 0), (fun _ => 1). split.
  - intros z v Hv. unfold quad. cbn. pose proof (exp_pos (z 0%nat)). assert (0 < v 0%nat * exp (z 0%nat) * v 0%nat) by (repeat apply Rmult_lt_0_compat; assumption). lra.
  - unfold loc_metric, quad, vsub. cbn. intros E. apply exp_inv in E. rewrite exp_0 in E. pose proof (exp_ineq1 1 ltac:(lra)). lra.
Qed.
Lemma sum_inverse : inverses 2 (madd s2 s2) (mscale (/ 2) g2).
Proof. split; intros [|[|i]] [|[|j]] Hi Hj; try lia; cbn; unfold delta, madd, mscale; cbn; field. Qed.
Lemma diffusion_example : correlation_in_diffusion 2 inv2 det2 (fun _ => s2) (fun _ => 0) (fun i => match i with O => 1 | _ => 0 end) = exp (- / 4).
Proof.
  unfold correlation_in_diffusion.
  replace (det2 (mscale (/ 2) (madd s2 s2))) with 1 by (unfold det2, mscale, madd, s2; field).
  replace (det2 s2) with 1 by (unfold det2, s2; ring). unfold Rpower. rewrite ln_1, !Rmult_0_r, exp_0.
  replace (1 * 1 / 1) with 1 by field. rewrite Rmult_1_l. f_equal. unfold quad, vsub, inv2, madd, s2. cbn. field.
Qed.
