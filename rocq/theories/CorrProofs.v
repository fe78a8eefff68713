From Coq Require Import Reals Lra Lia Arith.
From Verif Require Import CorrModel CorrSpec.
Open Scope R_scope.

Lemma rsum_ext n f g : (forall i, (i < n)%nat -> f i = g i) -> rsum n f = rsum n g.
Proof. induction n as [|n IH]; intros H; cbn; [reflexivity|]. rewrite IH, H by (intros; apply H || lia; lia). reflexivity. Qed.
Lemma rsum_scal n c f : rsum n (fun i => c * f i) = c * rsum n f.
Proof. induction n as [|n IH]; cbn; [ring|]. rewrite IH. ring. Qed.
Lemma rsum_scal_r n c f : rsum n (fun i => f i * c) = rsum n f * c.
Proof. induction n as [|n IH]; cbn; [ring|]. rewrite IH. ring. Qed.
Lemma rsum_plus n f g : rsum n (fun i => f i + g i) = rsum n f + rsum n g.
Proof. induction n as [|n IH]; cbn; [ring|]. rewrite IH. ring. Qed.
Lemma rsum_swap n m f : rsum n (fun i => rsum m (fun j => f i j)) = rsum m (fun j => rsum n (fun i => f i j)).
Proof.
  induction n as [|n IH]; cbn.
  - induction m as [|m IH]; cbn; [reflexivity|]. rewrite <- IH. ring.
  - rewrite IH. rewrite <- rsum_plus. reflexivity.
Qed.
Lemma rsum_zero n f : (forall i, (i < n)%nat -> f i = 0) -> rsum n f = 0.
Proof. intros H. induction n as [|n IH]; cbn; [reflexivity|]. rewrite IH, H by (intros; try apply H; lia). ring. Qed.
Lemma rsum_delta n i f : (i < n)%nat -> rsum n (fun k => delta i k * f k) = f i.
Proof.
  unfold delta. induction n as [|n IH]; intros H; [lia|]. cbn. destruct (Nat.eq_dec i n) as [->|N].
  - rewrite Nat.eqb_refl. rewrite rsum_zero; [ring|]. intros k Hk. destruct (Nat.eqb_spec n k); [lia|ring].
  - rewrite IH by lia. destruct (Nat.eqb_spec i n); [lia|ring].
Qed.
Lemma delta_sym i j : delta i j = delta j i.
Proof. unfold delta. now rewrite Nat.eqb_sym. Qed.

Lemma quad_ext n a b v w : (forall i j, (i < n)%nat -> (j < n)%nat -> a i j = b i j) -> (forall i, (i < n)%nat -> v i = w i) -> quad n a v = quad n b w.
Proof.
  intros H V. unfold quad. apply rsum_ext. intros i Hi. apply rsum_ext. intros j Hj. now rewrite H, !V.
Qed.
Lemma quad_scale n c a v : quad n (mscale c a) v = c * quad n a v.
Proof.
  unfold quad, mscale. rewrite <- rsum_scal. apply rsum_ext. intros i Hi. rewrite <- rsum_scal. apply rsum_ext. intros j Hj. ring.
Qed.
Lemma quad_along n a x v t : quad n a (vsub x (along x v t)) = t * t * quad n a v.
Proof.
  unfold quad, vsub, along. rewrite <- rsum_scal. apply rsum_ext. intros i Hi. rewrite <- rsum_scal. apply rsum_ext. intros j Hj. ring.
Qed.

(** the inverse is unique *)
Lemma inverse_unique n a b c : inverses n a b -> right_inverse n a c -> forall i j, (i < n)%nat -> (j < n)%nat -> c i j = b i j.
Proof.
  intros [_ L] R i j Hi Hj.
  rewrite <- (rsum_delta n i (fun k => c k j)) by exact Hi.
  transitivity (rsum n (fun k => rsum n (fun l => b i l * a l k) * c k j)).
  { apply rsum_ext. intros k Hk. now rewrite (L i k Hi Hk). }
  transitivity (rsum n (fun k => rsum n (fun l => b i l * a l k * c k j))).
  { apply rsum_ext. intros k Hk. now rewrite rsum_scal_r. }
  rewrite rsum_swap. transitivity (rsum n (fun l => b i l * delta l j)).
  { apply rsum_ext. intros l Hl. rewrite <- (R l j Hl Hj), <- rsum_scal. apply rsum_ext. intros k Hk. ring. }
  transitivity (rsum n (fun l => delta j l * b i l)).
  { apply rsum_ext. intros l _. rewrite (delta_sym j l). ring. }
  now rewrite rsum_delta.
Qed.
Lemma inverses_scale n c a b : c <> 0 -> inverses n a b -> inverses n (mscale c a) (mscale (/ c) b).
Proof.
  intros Hc [R L]. split; intros i j Hi Hj; unfold mscale; [rewrite <- (R i j Hi Hj)|rewrite <- (L i j Hi Hj)]; apply rsum_ext; intros k _; field; exact Hc.
Qed.

(** ** exp of a quadratic form *)
Lemma expansion_ext f g a b : (forall t, f t = g t) -> expansion f a b -> expansion g a b.
Proof.
  intros H (f' & D & A & B). exists f'. split; [|auto]. intros t eps He. destruct (D t eps He) as (d & Hd). exists d. intros h. rewrite <- !H. apply Hd.
Qed.
Lemma lim_ext f g x l : (forall t, f t = g t) -> derivable_pt_lim f x l -> derivable_pt_lim g x l.
Proof. intros H D eps He. destruct (D eps He) as (d & Hd). exists d. intros h. rewrite <- !H. apply Hd. Qed.
Lemma lim_val f x l l' : l = l' -> derivable_pt_lim f x l -> derivable_pt_lim f x l'.
Proof. intros ->. auto. Qed.
Lemma lim_sq x : derivable_pt_lim (fun t => t * t) x (2 * x).
Proof.
  eapply lim_val; [|apply (derivable_pt_lim_mult id id x 1 1); apply derivable_pt_lim_id]. unfold id. ring.
Qed.
Lemma lim_exp_comp L l x : derivable_pt_lim L x l -> derivable_pt_lim (fun t => exp (L t)) x (l * exp (L x)).
Proof.
  intros H. eapply lim_val; [|apply (derivable_pt_lim_comp L exp x l (exp (L x)) H); apply derivable_pt_lim_exp]. ring.
Qed.
(** exp of L, with L(0) = 0 and L'(0) = 0 *)
Lemma expansion_exp L L' b : (forall t, derivable_pt_lim L t (L' t)) -> L 0 = 0 -> L' 0 = 0 -> derivable_pt_lim L' 0 b -> expansion (fun t => exp (L t)) 0 b.
Proof.
  intros D L0 L1 D2. exists (fun t => L' t * exp (L t)). split; [intros t; apply lim_exp_comp; apply D|]. split; [rewrite L1; ring|].
  eapply lim_val; [|apply (derivable_pt_lim_mult L' (fun t => exp (L t)) 0 b (L' 0 * exp (L 0)) D2); apply lim_exp_comp; apply D]. cbn. rewrite L1, L0, exp_0. ring.
Qed.
Lemma gaussian q : expansion (fun t => exp (- (t * t * q))) 0 (- (2 * q)).
Proof.
  apply (expansion_exp (fun t => - (t * t * q)) (fun t => - (2 * t * q))).
  - intros t. eapply lim_val; [|eapply lim_ext; [|apply (derivable_pt_lim_scal (fun t => t * t) (- q) t (2 * t)); apply lim_sq]]; [ring|intros; unfold mult_real_fct; ring].
  - ring.
  - ring.
  - eapply lim_val; [|eapply lim_ext; [|apply (derivable_pt_lim_scal id (- (2 * q)) 0 1); apply derivable_pt_lim_id]]; [ring|intros; unfold mult_real_fct, id; ring].
Qed.

Section Main.
  Variable n : nat.
  Variable inv : matrix -> matrix.
  Variable det : matrix -> R.
  Hypothesis Hinv : inverting n inv.
  Hypothesis Hdet : forall a b, (forall i j, a i j = b i j) -> det a = det b.

  Lemma loc_metric_expansion g x v : expansion (fun t => loc_metric n g x (along x v t)) 0 (- (2 * quad n (g x) v)).
  Proof. eapply expansion_ext; [|apply gaussian]. intros t. unfold loc_metric. rewrite quad_along. reflexivity. Qed.
  Lemma half_inverse a b v : inverses n a b -> quad n (inv (mscale 2 a)) v = / 2 * quad n b v.
  Proof.
    intros H. rewrite <- quad_scale. apply quad_ext; [|reflexivity]. assert (H2 : inverses n (mscale 2 a) (mscale (/ 2) b)) by (apply inverses_scale; [lra|exact H]).
    intros i j Hi Hj. apply (inverse_unique n _ _ _ H2); auto. eapply Hinv. exact H2.
  Qed.
  Lemma loc_aspect_expansion s g x v : inverses n (s x) g -> expansion (fun t => loc_aspect n inv s x (along x v t)) 0 (- quad n g v).
  Proof.
    intros H. eapply expansion_ext; [|replace (- quad n g v) with (- (2 * (/ 2 * quad n g v))) by field; apply gaussian].
    intros t. unfold loc_aspect. rewrite quad_along, (half_inverse _ _ _ H). reflexivity.
  Qed.
  Lemma correlation_expansion s g x v : (forall y, s y = s x) -> 0 < det (s x) -> inverses n (s x) g ->
    expansion (fun t => correlation n inv det s x (along x v t)) 0 (- quad n g v).
  Proof.
    intros Hs Hd H. eapply expansion_ext; [|replace (- quad n g v) with (- (2 * (/ 2 * quad n g v))) by field; apply gaussian].
    intros t. unfold correlation. rewrite (Hs (along x v t)).
    assert (E1 : det (mscale (/ 2) (madd (s x) (s x))) = det (s x)) by (apply Hdet; intros i j; unfold mscale, madd; field).
    rewrite E1. assert (E2 : Rpower (det (s x)) (/ 4) * Rpower (det (s x)) (/ 4) / Rpower (det (s x)) (/ 2) = 1).
    { rewrite <- Rpower_plus. replace (/ 4 + / 4) with (/ 2) by field. field. unfold Rpower. pose proof (exp_pos (/ 2 * ln (det (s x)))). lra. }
    rewrite E2, Rmult_1_l, quad_along. repeat f_equal.
    assert (H2 : inverses n (madd (s x) (s x)) (mscale (/ 2) g)).
    { destruct (inverses_scale n 2 (s x) g ltac:(lra) H) as [A B]. split; intros i j Hi Hj; [rewrite <- (A i j Hi Hj)|rewrite <- (B i j Hi Hj)]; apply rsum_ext; intros k _; unfold madd, mscale; ring. }
    rewrite <- quad_scale. apply quad_ext; [|reflexivity]. intros i j Hi Hj. symmetry. apply (inverse_unique n _ _ _ H2); auto. eapply Hinv. exact H2.
  Qed.
End Main.

(** ** one dimension, aspect depending on the position *)
Definition det1 (m : matrix) : R := m 0%nat 0%nat.
Definition inv1 (m : matrix) : matrix := fun _ _ => / m 0%nat 0%nat.
Section One.
  Variables (sigma sigma' : R -> R) (sigma2 x : R).
  Hypothesis Hpos : forall y, 0 < sigma y.
  Hypothesis Hd : forall y, derivable_pt_lim sigma y (sigma' y).
  Hypothesis Hd2 : derivable_pt_lim sigma' x sigma2.
  Let S t := sigma (x + t).
  Let S' t := sigma' (x + t).
  Lemma shift_lim f l t : derivable_pt_lim f (x + t) l -> derivable_pt_lim (fun t => f (x + t)) t l.
  Proof.
    intros H eps He. destruct (H eps He) as (d & Hh). exists d. intros h. rewrite <- Rplus_assoc. apply Hh.
  Qed.
  Lemma ln_lim f f' t : 0 < f t -> derivable_pt_lim f t f' -> derivable_pt_lim (fun t => ln (f t)) t (f' / f t).
  Proof.
    intros P H. eapply lim_val; [|apply (derivable_pt_lim_comp f ln t f' (/ f t) H); apply derivable_pt_lim_ln; exact P]. field. lra.
  Qed.
  Lemma plus_lim f g a b t : derivable_pt_lim f t a -> derivable_pt_lim g t b -> derivable_pt_lim (fun t => f t + g t) t (a + b).
  Proof. apply derivable_pt_lim_plus. Qed.
  Lemma minus_lim f g a b t : derivable_pt_lim f t a -> derivable_pt_lim g t b -> derivable_pt_lim (fun t => f t - g t) t (a - b).
  Proof. apply derivable_pt_lim_minus. Qed.
  Lemma mult_lim f g a b t : derivable_pt_lim f t a -> derivable_pt_lim g t b -> derivable_pt_lim (fun t => f t * g t) t (a * g t + f t * b).
  Proof. apply derivable_pt_lim_mult. Qed.
  Lemma div_lim f g a b t : g t <> 0 -> derivable_pt_lim f t a -> derivable_pt_lim g t b -> derivable_pt_lim (fun t => f t / g t) t ((a * g t - b * f t) / Rsqr (g t)).
  Proof. intros N A B. exact (derivable_pt_lim_div f g t a b A B N). Qed.
  Lemma const_lim c t : derivable_pt_lim (fun _ => c) t 0.
  Proof. apply derivable_pt_lim_const. Qed.
  Lemma id_lim t : derivable_pt_lim (fun t => t) t 1.
  Proof. apply derivable_pt_lim_id. Qed.
  Lemma S_lim t : derivable_pt_lim S t (S' t).
  Proof. unfold S, S'. apply shift_lim. apply Hd. Qed.
  Lemma S_pos t : 0 < S t.
  Proof. apply Hpos. Qed.
  Lemma S'_lim : derivable_pt_lim S' 0 sigma2.
  Proof. unfold S'. apply shift_lim. now rewrite Rplus_0_r. Qed.
  Let L t := / 4 * ln (sigma x) + / 4 * ln (S t) - / 2 * ln (/ 2 * (sigma x + S t)) - t * t / (sigma x + S t).
  Let L' t := / 4 * (S' t / S t) - / 2 * (S' t / (sigma x + S t)) - (2 * t * (sigma x + S t) - S' t * (t * t)) / Rsqr (sigma x + S t).
  Lemma L_lim t : derivable_pt_lim L t (L' t).
  Proof.
    unfold L, L'. pose proof (Hpos x). pose proof (S_pos t).
    eapply lim_val; [|apply minus_lim; [apply minus_lim; [apply plus_lim; [apply const_lim|apply mult_lim; [apply const_lim|apply ln_lim; [apply S_pos|apply S_lim]]]|
      apply mult_lim; [apply const_lim|apply (ln_lim (fun t => / 2 * (sigma x + S t))); [lra|apply mult_lim; [apply const_lim|apply plus_lim; [apply const_lim|apply S_lim]]]]]|
      apply (div_lim (fun t => t * t) (fun t => sigma x + S t)); [lra|apply lim_sq|apply plus_lim; [apply const_lim|apply S_lim]]]].
    cbn. unfold Rsqr. field. lra.
  Qed.
  Lemma L'_lim : derivable_pt_lim L' 0 (- (/ sigma x + Rsqr (sigma' x) / (8 * Rsqr (sigma x)))).
  Proof.
    unfold L'. pose proof (Hpos x). pose proof (S_pos 0).
    assert (S0 : S 0 = sigma x) by (unfold S; now rewrite Rplus_0_r). assert (S0' : S' 0 = sigma' x) by (unfold S'; now rewrite Rplus_0_r).
    assert (D : derivable_pt_lim (fun t => sigma x + S t) 0 (S' 0)).
    { eapply lim_val; [|apply plus_lim; [apply const_lim|apply S_lim]]. ring. }
    eapply lim_val; [|apply minus_lim; [apply minus_lim; [apply mult_lim; [apply const_lim|apply div_lim; [lra|apply S'_lim|apply S_lim]]|
      apply mult_lim; [apply const_lim|apply (div_lim S' (fun t => sigma x + S t)); [lra|apply S'_lim|exact D]]]|
      apply (div_lim (fun t => 2 * t * (sigma x + S t) - S' t * (t * t)) (fun t => Rsqr (sigma x + S t)));
       [unfold Rsqr; nra|apply minus_lim; [apply mult_lim; [apply mult_lim; [apply const_lim|apply id_lim]|exact D]|apply mult_lim; [apply S'_lim|apply lim_sq]]|
        unfold Rsqr; apply mult_lim; exact D]]].
    cbn. rewrite S0, S0'. unfold Rsqr. field. lra.
  Qed.
  Lemma hetero : expansion (fun t => correlation 1 inv1 det1 (fun y _ _ => sigma (y 0%nat)) (fun _ => x) (along (fun _ => x) (fun _ => 1) t)) 0
    (- (/ sigma x + Rsqr (sigma' x) / (8 * Rsqr (sigma x)))).
  Proof.
    apply (expansion_ext (fun t => exp (L t))).
    - intros t. unfold correlation, L, quad, det1, inv1, mscale, madd, vsub, along, Rpower. cbn [rsum]. rewrite Rmult_1_r. fold (S t).
      unfold Rdiv at 2. rewrite <- exp_Ropp, <- !exp_plus. f_equal. pose proof (Hpos x). pose proof (S_pos t). field. lra.
    - apply (expansion_exp L L').
      + apply L_lim.
      + unfold L. unfold S. rewrite Rplus_0_r. replace (/ 2 * (sigma x + sigma x)) with (sigma x) by field. pose proof (Hpos x). field. lra.
      + unfold L', S, S'. rewrite Rplus_0_r. pose proof (Hpos x). unfold Rsqr. field. lra.
      + apply L'_lim.
  Qed.
End One.
