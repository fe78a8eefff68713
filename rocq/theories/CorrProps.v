(** Property C65: the local Gaussian correlations. *)
From Coq Require Import Reals Lra Lia Arith.
From Verif Require Import CorrModel CorrSpec CorrProofs.
Open Scope R_scope.

(** The internal closure of a Field takes E[eps D_v D_v eps] = - v.g v for its metric tensor g.
    The second derivative of the correlation that LocGaussianClosure uses is twice that; *)
Theorem C65_metric_form : forall n g x v, expansion (fun t => loc_metric n g x (along x v t)) 0 (- (2 * quad n (g x) v)).
Proof. exact loc_metric_expansion. Qed.
(** with metric=False and the aspect tensor s, it is that of the metric tensor inverse of s; *)
Theorem C65_aspect_form : forall n inv s g x v, inverting n inv -> inverses n (s x) g ->
  expansion (fun t => loc_aspect n inv s x (along x v t)) 0 (- quad n g v).
Proof. intros n inv s g x v H. exact (loc_aspect_expansion n inv H s g x v). Qed.
(** as it is for the class Closure with a constant aspect tensor. *)
Theorem C65_base_form : forall n inv det s g x v, inverting n inv -> (forall a b, (forall i j, a i j = b i j) -> det a = det b) ->
  (forall y, s y = s x) -> 0 < det (s x) -> inverses n (s x) g ->
  expansion (fun t => correlation n inv det s x (along x v t)) 0 (- quad n g v).
Proof. intros n inv det s g x v H D. exact (correlation_expansion n inv det H D s g x v). Qed.
(** So "the correlation of LocGaussianClosure has the metric tensor g it is written with" is false. *)
Theorem C65_metric_refuted : exists n g x v l, expansion (fun t => loc_metric n g x (along x v t)) 0 l /\ l <> - quad n (g x) v.
Proof.
  exists 1%nat, (fun _ _ _ => 1), (fun _ => 0), (fun _ => 1), (- (2 * quad 1 (fun _ _ => 1) (fun _ => 1))).
  split; [exact (C65_metric_form 1 (fun _ _ _ => 1) (fun _ => 0) (fun _ => 1))|]. unfold quad. cbn. lra.
Qed.
(** In one dimension, with an aspect s(x) that is not constant, the metric of the class Closure is
    1/s + s'^2/(8 s^2). *)
Theorem C65_variable_aspect : forall sigma sigma' sigma2 x, (forall y, 0 < sigma y) -> (forall y, derivable_pt_lim sigma y (sigma' y)) -> derivable_pt_lim sigma' x sigma2 ->
  expansion (fun t => correlation 1 (fun m _ _ => / m 0%nat 0%nat) (fun m => m 0%nat 0%nat) (fun y _ _ => sigma (y 0%nat)) (fun _ => x) (along (fun _ => x) (fun _ => 1) t)) 0
    (- (/ sigma x + Rsqr (sigma' x) / (8 * Rsqr (sigma x)))).
Proof. exact hetero. Qed.

(** an inverse for matrices of size 2 *)
Definition inv2 (m : matrix) : matrix :=
  let d := m 0%nat 0%nat * m 1%nat 1%nat - m 0%nat 1%nat * m 1%nat 0%nat in
  fun i j => match i, j with O, O => m 1%nat 1%nat / d | O, _ => - m 0%nat 1%nat / d | _, O => - m 1%nat 0%nat / d | _, _ => m 0%nat 0%nat / d end.
Example C65_example_inv : inverting 2 inv2.
Proof.
  intros a b [R _].
  pose proof (R 0 0 ltac:(lia) ltac:(lia))%nat as A. pose proof (R 0 1 ltac:(lia) ltac:(lia))%nat as B.
  pose proof (R 1 0 ltac:(lia) ltac:(lia))%nat as C. pose proof (R 1 1 ltac:(lia) ltac:(lia))%nat as D. cbn in A, B, C, D. unfold delta in *. cbn in A, B, C, D.
  assert (N : a 0%nat 0%nat * a 1%nat 1%nat - a 0%nat 1%nat * a 1%nat 0%nat <> 0).
  { intros E. assert (K : (a 0%nat 0%nat * a 1%nat 1%nat - a 0%nat 1%nat * a 1%nat 0%nat) * (b 0%nat 0%nat * b 1%nat 1%nat - b 0%nat 1%nat * b 1%nat 0%nat)
      = (0 + a 0%nat 0%nat * b 0%nat 0%nat + a 0%nat 1%nat * b 1%nat 0%nat) * (0 + a 1%nat 0%nat * b 0%nat 1%nat + a 1%nat 1%nat * b 1%nat 1%nat)
        - (0 + a 0%nat 0%nat * b 0%nat 1%nat + a 0%nat 1%nat * b 1%nat 1%nat) * (0 + a 1%nat 0%nat * b 0%nat 0%nat + a 1%nat 1%nat * b 1%nat 0%nat)) by ring.
    rewrite A, B, C, D, E in K. lra. }
  intros [|[|i]] [|[|j]] Hi Hj; try lia; cbn; unfold inv2, delta; cbn; field; exact N.
Qed.
Definition s2 : matrix := fun i j => match i, j with O, O => 2 | O, _ => 1 | _, O => 1 | _, _ => 1 end.
Definition g2 : matrix := fun i j => match i, j with O, O => 1 | O, _ => - 1 | _, O => - 1 | _, _ => 2 end.
Example C65_example_inverses : inverses 2 s2 g2.
Proof. split; intros [|[|i]] [|[|j]] Hi Hj; try lia; cbn; unfold delta; cbn; ring. Qed.
(** the second derivative along the first coordinate for this metric: -2 in metric form, -1 otherwise *)
Example C65_example : let v := fun i : nat => match i with O => 1 | _ => 0 end in
  expansion (fun t => loc_metric 2 (fun _ => g2) (fun _ => 0) (along (fun _ => 0) v t)) 0 (- 2)
  /\ expansion (fun t => loc_aspect 2 inv2 (fun _ => s2) (fun _ => 0) (along (fun _ => 0) v t)) 0 (- 1)
  /\ expansion (fun t => correlation 2 inv2 (fun m => m 0%nat 0%nat * m 1%nat 1%nat - m 0%nat 1%nat * m 1%nat 0%nat) (fun _ => s2) (fun _ => 0) (along (fun _ => 0) v t)) 0 (- 1).
Proof.
  intros v. split; [|split].
  - replace (- 2) with (- (2 * quad 2 g2 v)) by (unfold quad; cbn; ring). exact (C65_metric_form 2 (fun _ => g2) (fun _ => 0) v).
  - replace (- 1) with (- quad 2 g2 v) by (unfold quad; cbn; ring). exact (C65_aspect_form 2 inv2 (fun _ => s2) g2 (fun _ => 0) v C65_example_inv C65_example_inverses).
  - replace (- 1) with (- quad 2 g2 v) by (unfold quad; cbn; ring).
    apply (C65_base_form 2 inv2 _ (fun _ => s2) g2 (fun _ => 0) v C65_example_inv); [intros a b H; now rewrite !H|reflexivity|cbn; lra|exact C65_example_inverses].
Qed.
Example C65_example_variable : expansion (fun t => correlation 1 (fun m _ _ => / m 0%nat 0%nat) (fun m => m 0%nat 0%nat) (fun y _ _ => exp (y 0%nat)) (fun _ => 0) (along (fun _ => 0) (fun _ => 1) t)) 0
  (- (1 + 1 / 8)).
Proof.
  replace (- (1 + 1 / 8)) with (- (/ exp 0 + Rsqr (exp 0) / (8 * Rsqr (exp 0)))) by (rewrite exp_0; unfold Rsqr; field).
  apply (C65_variable_aspect exp exp (exp 0) 0); [apply exp_pos|apply derivable_pt_lim_exp|apply derivable_pt_lim_exp].
Qed.

Print Assumptions C65_metric_form.
Print Assumptions C65_aspect_form.
Print Assumptions C65_base_form.
Print Assumptions C65_metric_refuted.
Print Assumptions C65_variable_aspect.
