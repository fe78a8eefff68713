(** C106: the correlation functions of the class Closure as correlation functions. *)
From Coq Require Import Reals Lra Lia Arith.
From Verif Require Import CorrModel CorrSpec CorrProofs CorrDiffModel CorrDiffProofs CorrProps CorrDiffMain.
Open Scope R_scope.

(** correlation_in_diffusion, written with the diffusion tensor nu, is the correlation written with
    the aspect tensor 2 nu, at all points, in all dimensions. *)
Theorem C106_diffusion_is_aspect : forall n inv det, inverting n inv ->
  (forall a b, (forall i j, a i j = b i j) -> det a = det b) -> (forall c a, det (mscale c a) = c ^ n * det a) ->
  forall nu px py g, 0 < det (nu px) -> 0 < det (nu py) -> 0 < det (mscale (/ 2) (madd (nu px) (nu py))) ->
  inverses n (madd (nu px) (nu py)) g ->
  correlation_in_diffusion n inv det nu px py = correlation n inv det (fun y => mscale 2 (nu y)) px py.
Proof. exact same_correlation. Qed.

(** With a constant tensor its metric tensor is half the inverse of nu *)
Theorem C106_diffusion_metric : forall n inv det, inverting n inv ->
  (forall a b, (forall i j, a i j = b i j) -> det a = det b) -> (forall c a, det (mscale c a) = c ^ n * det a) ->
  forall nu g x v, (forall y, nu y = nu x) -> 0 < det (nu x) -> inverses n (nu x) g ->
  expansion (fun t => correlation_in_diffusion n inv det nu x (along x v t)) 0 (- quad n (mscale (/ 2) g) v).
Proof. exact diffusion_expansion. Qed.

(** The correlation of a point with itself is 1 *)
Theorem C106_diagonal : forall n inv det, (forall a b, (forall i j, a i j = b i j) -> det a = det b) ->
  forall s x, 0 < det (s x) -> correlation n inv det s x x = 1.
Proof. exact correlation_diagonal. Qed.
(** It is symmetric *)
Theorem C106_symmetric : forall n inv det, inverting n inv -> (forall a b, (forall i j, a i j = b i j) -> det a = det b) ->
  forall s x y g, inverses n (madd (s x) (s y)) g -> correlation n inv det s x y = correlation n inv det s y x.
Proof. exact correlation_symmetric. Qed.
(** In one and two dimensions, for tensors that are symmetric and positive definite, it lies in (0, 1]. *)
Theorem C106_bounds_1 : forall s x y, (forall z, 0 < s z 0%nat 0%nat) ->
  0 < correlation 1 (fun m _ _ => / m 0%nat 0%nat) (fun m => m 0%nat 0%nat) s x y <= 1.
Proof. exact bounds_1. Qed.
Theorem C106_bounds_2 : forall inv, inverting 2 inv -> forall s x y,
  (forall z, 0 < s z 0%nat 0%nat /\ s z 0%nat 1%nat = s z 1%nat 0%nat /\ 0 < det2 (s z)) ->
  0 < correlation 2 inv det2 s x y <= 1.
Proof. exact bounds_2. Qed.

(** The function of LocGaussianClosure is not symmetric, so it is not a correlation function. *)
Theorem C106_loc_symmetric_refuted : exists n g x y, (forall z v, 0 < v 0%nat -> 0 < quad n (g z) v) /\ loc_metric n g x y <> loc_metric n g y x.
Proof. exact loc_not_symmetric. Qed.

(** the matrix s2 = (2 1; 1 1), constant, in two dimensions *)
Example C106_example : correlation_in_diffusion 2 inv2 det2 (fun _ => s2) (fun _ => 0) (fun i => match i with O => 1 | _ => 0 end)
  = exp (- / 4).
Proof. exact diffusion_example. Qed.
Example C106_example_hypotheses : inverting 2 inv2 /\ (forall a b : matrix, (forall i j, a i j = b i j) -> det2 a = det2 b)
  /\ (forall c a, det2 (mscale c a) = c ^ 2 * det2 a) /\ 0 < det2 s2 /\ inverses 2 (madd s2 s2) (mscale (/ 2) g2).
Proof.
  split; [exact C65_example_inv|]. split; [intros a b H; unfold det2; now rewrite !H|]. split; [intros c a; unfold det2, mscale; ring|].
  split; [unfold det2, s2; lra|]. exact sum_inverse.
Qed.

Print Assumptions C106_diffusion_is_aspect.
Print Assumptions C106_diffusion_metric.
Print Assumptions C106_diagonal.
Print Assumptions C106_symmetric.
Print Assumptions C106_bounds_1.
Print Assumptions C106_bounds_2.
Print Assumptions C106_loc_symmetric_refuted.
