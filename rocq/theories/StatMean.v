(** The statistics of an ensemble of carried fields. *)
From Coq Require Import List Arith Bool Reals Lia Lra Psatz FunctionalExtensionality.
From Verif Require Import PyBase FieldFacts FDExprSpec FDReal ConsistSpec ConsistProofs AdvectSpec AdvectConv WindSpec WindConv StatSpec StatSmooth StatInverse.
Import ListNotations.
Open Scope R_scope.

Lemma deriv_scale k c f t p l : deriv k f t p l -> deriv k (fun t p => c * f t p) t p (c * l).
Proof. intros H. eapply deriv_eq; [apply (deriv_mult k (fun _ _ => c) f); [apply deriv_const|exact H]|]. ring. Qed.
Lemma deriv_sum k N (f : nat -> R -> point -> R) t p l : (forall r, (r < N)%nat -> deriv k (f r) t p (l r)) -> deriv k (fun t p => sumk N (fun r => f r t p)) t p (sumk N l).
Proof.
  intros H. unfold sumk. assert (G : forall q, (forall r, In r q -> (r < N)%nat) -> deriv k (fun t p => fold_right Rplus 0 (map (fun r => f r t p) q)) t p (fold_right Rplus 0 (map l q))).
  { induction q as [|r q IH]; intros Hq; cbn [map fold_right]; [apply deriv_const|]. apply (deriv_plus k (f r)); [apply H, Hq; left; auto|]. apply IH. intros; apply Hq; right; auto. }
  apply G. intros r Hr. apply in_seq in Hr. lia.
Qed.

Section Carried.
  Variables (n : nat) (T0 T1 : R) (w : nat -> point -> R).
  Notation on t := (T0 < t < T1).
  Notation smooth := (smoothf n T0 T1).
  (** D_t f = - w . grad f *)
  Definition carriedf (f : R -> point -> R) : Prop := forall t p d, on t -> (forall k, (k < n)%nat -> deriv (Some k) f t p (d k)) -> deriv None f t p (- sumk n (fun k => w k p * d k)).
  Lemma smooth_grad f : smooth f -> forall t p, on t -> exists d, forall k, (k < n)%nat -> deriv (Some k) f t p (d k).
  Proof. intros H t p Ht. apply (finite_choice (fun k l => deriv (Some k) f t p l) n 0). intros k Hk. destruct (smooth_deriv n T0 T1 (Some k) f Hk H) as (g & _ & D). exists (g t p). apply D; auto. Qed.
  Lemma carried_ext f g : (forall t p, on t -> f t p = g t p) -> carriedf f -> carriedf g.
  Proof. intros E H t p d Ht D. eapply (deriv_ext T0 T1 None f); auto. apply H; auto. intros k Hk. eapply (deriv_ext T0 T1 (Some k) g); auto. intros; symmetry; auto. Qed.
  Lemma grad_unique f t p d d' : on t -> (forall k, (k < n)%nat -> deriv (Some k) f t p (d k)) -> (forall k, (k < n)%nat -> deriv (Some k) f t p (d' k)) -> sumk n (fun k => w k p * d k) = sumk n (fun k => w k p * d' k).
  Proof. intros Ht H1 H2. apply sumk_ext. intros k Hk. f_equal. apply (deriv_unique T0 T1 (Some k) f f t p); auto. Qed.
  Lemma carried_from f t p d : on t -> carriedf f -> (forall k, (k < n)%nat -> deriv (Some k) f t p (d k)) -> deriv None f t p (- sumk n (fun k => w k p * d k)).
  Proof. intros Ht H. apply H; auto. Qed.
  Lemma carried_plus f g : smooth f -> smooth g -> carriedf f -> carriedf g -> carriedf (fun t p => f t p + g t p).
  Proof.
    intros Sf Sg Hf Hg t p d Ht D. destruct (smooth_grad f Sf t p Ht) as (df & Df). destruct (smooth_grad g Sg t p Ht) as (dg & Dg).
    eapply deriv_eq; [apply (deriv_plus None f g); [apply (Hf t p df Ht Df)|apply (Hg t p dg Ht Dg)]|].
    rewrite (grad_unique (fun t p => f t p + g t p) t p d (fun k => df k + dg k) Ht D (fun k Hk => deriv_plus (Some k) f g t p _ _ (Df k Hk) (Dg k Hk))).
    rewrite (sumk_ext n (fun k => w k p * (df k + dg k)) (fun k => w k p * df k + w k p * dg k)) by (intros; ring). rewrite sumk_plus. ring.
  Qed.
  Lemma carried_mult f g : smooth f -> smooth g -> carriedf f -> carriedf g -> carriedf (fun t p => f t p * g t p).
  Proof.
    intros Sf Sg Hf Hg t p d Ht D. destruct (smooth_grad f Sf t p Ht) as (df & Df). destruct (smooth_grad g Sg t p Ht) as (dg & Dg).
    eapply deriv_eq; [apply (deriv_mult None f g); [apply (Hf t p df Ht Df)|apply (Hg t p dg Ht Dg)]|].
    rewrite (grad_unique (fun t p => f t p * g t p) t p d (fun k => df k * g t p + f t p * dg k) Ht D (fun k Hk => deriv_mult (Some k) f g t p _ _ (Df k Hk) (Dg k Hk))).
    rewrite (sumk_ext n (fun k => w k p * (df k * g t p + f t p * dg k)) (fun k => w k p * df k * g t p + f t p * (w k p * dg k))) by (intros; ring).
    rewrite sumk_plus, sumk_scale, sumk_scale_r. ring.
  Qed.
  Lemma carried_const c : carriedf (fun _ _ => c).
  Proof.
    intros t p d Ht D. eapply deriv_eq; [apply deriv_const|]. rewrite (grad_unique (fun _ _ => c) t p d (fun _ => 0) Ht D (fun k _ => deriv_const (Some k) c t p)).
    rewrite (sumk_ext n _ (fun _ => 0)) by (intros; ring). rewrite sumk_zero. ring.
  Qed.
  Lemma carried_scale c f : smooth f -> carriedf f -> carriedf (fun t p => c * f t p).
  Proof. intros Sf Hf. apply (carried_mult (fun _ _ => c) f); auto using carried_const, smooth_const. Qed.
  Lemma carried_sum N (f : nat -> R -> point -> R) : (forall r, (r < N)%nat -> smooth (f r)) -> (forall r, (r < N)%nat -> carriedf (f r)) -> carriedf (fun t p => sumk N (fun r => f r t p)).
  Proof.
    intros S H. induction N as [|N IH]; [exact (carried_const 0)|].
    apply (carried_ext (fun t p => sumk N (fun r => f r t p) + f N t p)); [intros; rewrite sumk_S; reflexivity|].
    apply carried_plus; [apply smooth_sum; intros; apply S; lia|apply S; lia|apply IH; intros; [apply S|apply H]; lia|apply H; lia].
  Qed.
  Lemma carried_isqrt f c : 0 < c -> (forall t p, on t -> c <= f t p) -> smooth f -> carriedf f -> carriedf (fun t p => / sqrt (f t p)).
  Proof.
    intros Hc Hl Sf Hf t p d Ht D. destruct (smooth_grad f Sf t p Ht) as (df & Df).
    eapply deriv_eq; [apply (deriv_isqrt T0 T1 f c Hc Hl None t p _ Ht (Hf t p df Ht Df))|].
    rewrite (grad_unique (fun t p => / sqrt (f t p)) t p d (fun k => - / 2 * (/ sqrt (f t p) * (/ sqrt (f t p) * / sqrt (f t p))) * df k) Ht D (fun k Hk => deriv_isqrt T0 T1 f c Hc Hl (Some k) t p _ Ht (Df k Hk))).
    rewrite (sumk_ext n (fun k => w k p * (- / 2 * (/ sqrt (f t p) * (/ sqrt (f t p) * / sqrt (f t p))) * df k)) (fun k => - / 2 * (/ sqrt (f t p) * (/ sqrt (f t p) * / sqrt (f t p))) * (w k p * df k))) by (intros; ring). rewrite sumk_scale. ring.
  Qed.
End Carried.

Section Members.
  Variables (n : nat) (lengths : list R) (w : nat -> multi -> point -> R) (V : nat -> R) (T0 T1 : R) (N : nat) (pi : nat -> R).
  Variables (u : nat -> nat -> R -> multi -> point -> R) (s : nat -> nat -> R -> point -> R).
  Hypothesis SW : smooth_winds n lengths w V.
  Hypothesis CE : carried_ensemble n lengths w T0 T1 N pi u s.
  Notation on t := (T0 < t < T1).
  Notation smooth := (smoothf n T0 T1).
  Notation car := (carriedf n T0 T1 (fun k => w k none)).
  Notation c := (fun r t p => u r O t none p).
  Lemma member_family r : (r < N)%nat -> family n T0 T1 (u r).
  Proof.
    intros Hr. destruct (ce_members _ _ _ _ _ _ _ _ _ CE r Hr) as [E1 E2 E3 E4 E5]. split.
    - intros m t Ht. apply E1; lra.
    - intros m a t p Ht. apply E2; lra.
    - intros m a. destruct (E5 m a) as (B & HB). exists B. intros. apply HB; lra.
  Qed.
  Lemma member_smooth r : (r < N)%nat -> smooth (c r).
  Proof. intros Hr. apply smooth_of_family, member_family, Hr. Qed.
  Lemma family_carried v : family n T0 T1 v -> (forall t p, on t -> v 1%nat t none p = - sumk n (fun k => w k none p * v O t (inc k none) p)) -> car (fun t p => v O t none p).
  Proof.
    intros [F1 F2 F3] E t p d Ht D. eapply deriv_eq; [exact (F2 O none t p Ht)|]. rewrite E by auto. f_equal. apply sumk_ext. intros k Hk. f_equal.
    exact (deriv_unique T0 T1 (Some k) (fun t p => v O t none p) (fun t p => v O t none p) t p _ _ Ht (fun _ _ _ => eq_refl) (F1 O t Ht none k p Hk) (D k Hk)).
  Qed.
  Lemma member_carried r : (r < N)%nat -> car (c r).
  Proof. intros Hr. apply family_carried; [apply member_family, Hr|]. intros t p Ht. exact (ev_equation _ _ _ _ _ _ (ce_members _ _ _ _ _ _ _ _ _ CE r Hr) t p ltac:(lra)). Qed.
  Notation avg := (average N pi).
  Lemma avg_smooth (f : nat -> R -> point -> R) : (forall r, (r < N)%nat -> smooth (f r)) -> smooth (fun t p => avg (fun r => f r t p)).
  Proof. intros H. apply (smooth_sum n T0 T1 N (fun r t p => pi r * f r t p)). intros r Hr. apply smooth_scale, H, Hr. Qed.
  Lemma avg_carried (f : nat -> R -> point -> R) : (forall r, (r < N)%nat -> smooth (f r)) -> (forall r, (r < N)%nat -> car (f r)) -> car (fun t p => avg (fun r => f r t p)).
  Proof. intros S H. apply (carried_sum n T0 T1 _ N (fun r t p => pi r * f r t p)); intros r Hr; [apply smooth_scale, S, Hr|apply carried_scale; auto]. Qed.
  Lemma mean_smooth : smooth (ens_mean N pi c). Proof. apply (avg_smooth c), member_smooth. Qed.
  Lemma mean_carried : car (ens_mean N pi c). Proof. apply (avg_carried c); [apply member_smooth|apply member_carried]. Qed.
  Lemma error_smooth r : (r < N)%nat -> smooth (ens_error N pi c r).
  Proof.
    intros Hr. apply (smooth_ext n T0 T1 (fun t p => c r t p + -1 * ens_mean N pi c t p)); [intros; unfold ens_error; ring|].
    apply smooth_plus; [apply member_smooth, Hr|apply smooth_scale, mean_smooth].
  Qed.
  Lemma error_carried r : (r < N)%nat -> car (ens_error N pi c r).
  Proof.
    intros Hr. apply (carried_ext n T0 T1 _ (fun t p => c r t p + -1 * ens_mean N pi c t p)); [intros; unfold ens_error; ring|].
    apply carried_plus; [apply member_smooth, Hr|apply smooth_scale, mean_smooth|apply member_carried, Hr|apply carried_scale; [apply mean_smooth|apply mean_carried]].
  Qed.
  Notation Var := (ens_variance N pi c).
  Lemma square_smooth r : (r < N)%nat -> smooth (fun t p => ens_error N pi c r t p * ens_error N pi c r t p).
  Proof. intros Hr. apply smooth_mult; apply error_smooth, Hr. Qed.
  Lemma variance_smooth : smooth Var. Proof. apply (avg_smooth (fun r t p => ens_error N pi c r t p * ens_error N pi c r t p)), square_smooth. Qed.
  Lemma variance_carried : car Var.
  Proof. apply (avg_carried (fun r t p => ens_error N pi c r t p * ens_error N pi c r t p)); [apply square_smooth|]. intros r Hr. apply carried_mult; auto using error_smooth, error_carried. Qed.
  Lemma isd_smooth : smooth (fun t p => / sqrt (Var t p)).
  Proof. destruct (ce_variance _ _ _ _ _ _ _ _ _ CE) as (v & Pv & Hv). apply (smooth_isqrt n T0 T1 Var v Pv variance_smooth Hv). Qed.
  Lemma isd_carried : car (fun t p => / sqrt (Var t p)).
  Proof. destruct (ce_variance _ _ _ _ _ _ _ _ _ CE) as (v & Pv & Hv). exact (carried_isqrt n T0 T1 _ Var v Pv Hv variance_smooth variance_carried). Qed.
  Lemma normal_smooth r : (r < N)%nat -> smooth (ens_normal N pi c r).
  Proof. intros Hr. apply smooth_mult; [apply error_smooth, Hr|apply isd_smooth]. Qed.
  Lemma normal_carried r : (r < N)%nat -> car (ens_normal N pi c r).
  Proof. intros Hr. apply carried_mult; auto using error_smooth, error_carried, isd_smooth, isd_carried. Qed.

  (** ** the metric tensor *)
  Lemma normal_families : exists e : nat -> nat -> R -> multi -> point -> R, forall r, (r < N)%nat -> family n T0 T1 (e r) /\ forall t p, on t -> e r O t none p = ens_normal N pi c r t p.
  Proof. destruct (smooth_const n T0 T1 0) as (z & _). apply (finite_choice (fun r e => family n T0 T1 e /\ forall t p, on t -> e O t none p = ens_normal N pi c r t p) N z). intros r Hr. exact (normal_smooth r Hr). Qed.
  Section Metric.
    Variable e : nat -> nat -> R -> multi -> point -> R.
    Hypothesis He : forall r, (r < N)%nat -> family n T0 T1 (e r) /\ forall t p, on t -> e r O t none p = ens_normal N pi c r t p.
    Lemma normal_eq r t p : (r < N)%nat -> on t -> e r 1%nat t none p = - sumk n (fun k => w k none p * e r O t (inc k none) p).
    Proof.
      intros Hr Ht. destruct (He r Hr) as [[F1 F2 F3] E]. apply (deriv_unique T0 T1 None (fun t p => e r O t none p) (fun t p => e r O t none p) t p); auto; [exact (F2 O none t p Ht)|].
      refine (carried_ext n T0 T1 (fun k => w k none) (ens_normal N pi c r) (fun t p => e r O t none p) _ (normal_carried r Hr) t p (fun k => e r O t (inc k none) p) Ht _); [intros; symmetry; auto|]. intros k Hk. exact (F1 O t Ht none k p Hk).
    Qed.
    Lemma normal_grad_eq r a t p : (r < N)%nat -> (a < n)%nat -> on t ->
      e r 1%nat t (inc a none) p = - sumk n (fun k => w k (inc a none) p * e r O t (inc k none) p + w k none p * e r O t (inc k (inc a none)) p).
    Proof.
      intros Hr Ha Ht. destruct (He r Hr) as [[F1 F2 F3] E].
      apply (deriv_unique T0 T1 (Some a) (fun t p => e r 1%nat t none p) (fun t p => - sumk n (fun k => w k none p * e r O t (inc k none) p)) t p); auto.
      - intros; apply normal_eq; auto.
      - exact (F1 1%nat t Ht none a p Ha).
      - eapply deriv_eq; [apply (deriv_ext T0 T1 (Some a) (fun t p => -1 * sumk n (fun k => w k none p * e r O t (inc k none) p))); [exact Ht|intros; ring|]|].
        + apply deriv_scale. apply (deriv_sum (Some a) n (fun k t p => w k none p * e r O t (inc k none) p)). intros k Hk.
          apply (deriv_mult (Some a) (fun _ p => w k none p) (fun t p => e r O t (inc k none) p)); [exact (sw_space _ _ _ _ SW k Hk none a p Ha)|exact (F1 O t Ht (inc k none) a p Ha)].
        + cbv beta. rewrite (sumk_ext n _ (fun k => w k (inc a none) p * e r O t (inc k none) p + w k none p * e r O t (inc k (inc a none)) p)); [ring|].
          intros k Hk. rewrite (inc_comm a k). reflexivity.
    Qed.
    Definition met (a b : nat) (t : R) (p : point) : R := avg (fun r => e r O t (inc a none) p * e r O t (inc b none) p).
    Lemma met_smooth a b : smooth (met a b).
    Proof. apply (avg_smooth (fun r t p => e r O t (inc a none) p * e r O t (inc b none) p)). intros r Hr. apply smooth_mult; apply smooth_of_family, He, Hr. Qed.
    Lemma met_deriv k a b t p (l l' : nat -> R) : (forall r, (r < N)%nat -> deriv k (fun t p => e r O t (inc a none) p) t p (l r)) -> (forall r, (r < N)%nat -> deriv k (fun t p => e r O t (inc b none) p) t p (l' r)) ->
      deriv k (met a b) t p (avg (fun r => l r * e r O t (inc b none) p + e r O t (inc a none) p * l' r)).
    Proof.
      intros H1 H2. apply (deriv_sum k N (fun r t p => pi r * (e r O t (inc a none) p * e r O t (inc b none) p)) t p (fun r => pi r * (l r * e r O t (inc b none) p + e r O t (inc a none) p * l' r))).
      intros r Hr. apply deriv_scale. apply (deriv_mult k (fun t p => e r O t (inc a none) p) (fun t p => e r O t (inc b none) p)); auto.
    Qed.
    Definition dmet (k a b : nat) (t : R) (p : point) : R := avg (fun r => e r O t (inc k (inc a none)) p * e r O t (inc b none) p + e r O t (inc a none) p * e r O t (inc k (inc b none)) p).
    Lemma met_space k a b t p : (k < n)%nat -> on t -> deriv (Some k) (met a b) t p (dmet k a b t p).
    Proof. intros Hk Ht. apply met_deriv; intros r Hr; destruct (He r Hr) as [[F1 F2 F3] E]; apply F1; auto. Qed.
    Lemma avg_ext (f g : nat -> R) : (forall r, (r < N)%nat -> f r = g r) -> avg f = avg g.
    Proof. intros H. apply sumk_ext. intros r Hr. rewrite H; auto. Qed.
    Lemma avg_plus (f g : nat -> R) : avg (fun r => f r + g r) = avg f + avg g.
    Proof. unfold average. fold (sumk N (fun r => pi r * f r)) (sumk N (fun r => pi r * g r)). rewrite <- (sumk_plus N). apply sumk_ext. intros; ring. Qed.
    Lemma avg_scale x (f : nat -> R) : avg (fun r => x * f r) = x * avg f.
    Proof. unfold average. fold (sumk N (fun r => pi r * f r)). rewrite <- (sumk_scale N). apply sumk_ext. intros; ring. Qed.
    Lemma avg_sumk m (f : nat -> nat -> R) : avg (fun r => sumk m (fun k => f k r)) = sumk m (fun k => avg (f k)).
    Proof. transitivity (sumk N (fun r => sumk m (fun k => pi r * f k r))); [apply sumk_ext; intros r _; rewrite sumk_scale; reflexivity|]. rewrite sumk_swap. reflexivity. Qed.
    Lemma met_time a b t p : (a < n)%nat -> (b < n)%nat -> on t ->
      deriv None (met a b) t p (- sumk n (fun k => w k none p * dmet k a b t p) - sumk n (fun k => w k (inc a none) p * met k b t p + w k (inc b none) p * met a k t p)).
    Proof.
      intros Ha Hb Ht. eapply deriv_eq; [apply (met_deriv None a b t p (fun r => e r 1%nat t (inc a none) p) (fun r => e r 1%nat t (inc b none) p)); intros r Hr; destruct (He r Hr) as [[F1 F2 F3] E]; apply F2; auto|].
      cbv beta.
      rewrite (avg_ext _ (fun r => -1 * sumk n (fun k => w k none p * (e r O t (inc k (inc a none)) p * e r O t (inc b none) p + e r O t (inc a none) p * e r O t (inc k (inc b none)) p)
        + (w k (inc a none) p * (e r O t (inc k none) p * e r O t (inc b none) p) + w k (inc b none) p * (e r O t (inc a none) p * e r O t (inc k none) p))))).
      2: { intros r Hr. rewrite !normal_grad_eq by auto. rewrite <- !sumk_opp, <- sumk_scale, <- sumk_scale_r, <- sumk_scale, <- sumk_plus. apply sumk_ext. intros k Hk. ring. }
      rewrite avg_scale, avg_sumk. unfold dmet, met, Rminus. rewrite <- !sumk_opp, <- sumk_scale, <- sumk_plus. apply sumk_ext. intros k Hk. rewrite !avg_plus, !avg_scale. rewrite !avg_plus. ring.
    Qed.
    (** the tensor of the hypothesis is its inverse *)
    Lemma met_inverse t p : on t -> inverse_of n (fun a b => met a b t p) (fun a b => s a b t p).
    Proof.
      intros Ht. destruct (ce_aspect _ _ _ _ _ _ _ _ _ CE) as (d & Dd & I).
      assert (Q : forall a b, (a < n)%nat -> (b < n)%nat -> avg (fun r => d r a t p * d r b t p) = met a b t p).
      { intros a b Ha Hb. apply avg_ext. intros r Hr. destruct (He r Hr) as [[F1 F2 F3] E].
        assert (K : forall a, (a < n)%nat -> d r a t p = e r O t (inc a none) p).
        { intros a' Ha'. exact (deriv_unique T0 T1 (Some a') (ens_normal N pi c r) (fun t p => e r O t none p) t p _ _ Ht (fun t' p' Ht' => eq_sym (E t' p' Ht')) (Dd r a' t p Hr Ha' Ht) (F1 O t Ht none a' p Ha')). }
        rewrite !K by auto. reflexivity. }
      split; intros a b Ha Hb; destruct (I t p a b Ht Ha Hb) as [I1 I2]; unfold unit_mat; [rewrite <- I1|rewrite <- I2]; apply sumk_ext; intros k Hk; rewrite Q by auto; reflexivity.
    Qed.
    Lemma aspect_smooth_ a b : (a < n)%nat -> (b < n)%nat -> smooth (s a b).
    Proof.
      destruct (ce_bounded _ _ _ _ _ _ _ _ _ CE) as (B & HB).
      apply (smooth_inverse n T0 T1 met s B); [intros; apply met_smooth|apply met_inverse|intros; apply HB; auto].
    Qed.
    (** D_t s = - w . grad s + s A + A^T s, A the derivatives of the winds *)
    Lemma aspect_time_ a b t p ds : (a < n)%nat -> (b < n)%nat -> on t -> (forall k, (k < n)%nat -> deriv (Some k) (s a b) t p (ds k)) ->
      deriv None (s a b) t p (- sumk n (fun k => w k none p * ds k) + sumk n (fun k => s a k t p * w b (inc k none) p + s k b t p * w a (inc k none) p)).
    Proof.
      intros Ha Hb Ht D. destruct (ce_bounded _ _ _ _ _ _ _ _ _ CE) as (B & HB).
      assert (HB' : forall a b t p, on t -> (a < n)%nat -> (b < n)%nat -> Rabs (s a b t p) <= B) by auto.
      set (S := (fun a b => s a b t p) : mat). set (G := (fun a b => met a b t p) : mat). set (A := (fun a k => w k (inc a none) p) : mat).
      pose proof (met_inverse t p Ht) as [I1 I2]. fold S G in I1, I2.
      pose proof (deriv_inverse n T0 T1 met s B met_inverse HB' None t p _ Ht (fun a b Ha Hb => met_time a b t p Ha Hb Ht) a b Ha Hb) as H. fold S in H.
      eapply deriv_eq; [exact H|]. clear H.
      assert (Es : forall k, (k < n)%nat -> ds k = - mm n S (mm n (fun a b => dmet k a b t p) S) a b).
      { intros k Hk. apply (deriv_unique T0 T1 (Some k) (s a b) (s a b) t p); auto.
        exact (deriv_inverse n T0 T1 met s B met_inverse HB' (Some k) t p _ Ht (fun a b Ha Hb => met_space k a b t p Hk Ht) a b Ha Hb). }
      rewrite (sumk_ext n (fun k => w k none p * ds k) (fun k => - (w k none p * mm n S (mm n (fun a b => dmet k a b t p) S) a b))) by (intros k Hk; rewrite Es by auto; ring).
      rewrite sumk_opp.
      set (M1 := (fun a b => - sumk n (fun k => w k none p * dmet k a b t p)) : mat).
      assert (E1 : mm n S (mm n M1 S) a b = - sumk n (fun k => w k none p * mm n S (mm n (fun a b => dmet k a b t p) S) a b)).
      { set (Q := fun k x y => - (w k none p * (S a x * (dmet k x y t p * S y b)))).
        transitivity (sumk n (fun x => sumk n (fun y => sumk n (fun k => Q k x y)))).
        - rewrite mm3. apply sumk_ext. intros x _. apply sumk_ext. intros y _. unfold M1, Q. rewrite <- sumk_opp, <- sumk_scale_r, <- sumk_scale. apply sumk_ext. intros; ring.
        - rewrite <- sumk_opp. transitivity (sumk n (fun k => sumk n (fun x => sumk n (fun y => Q k x y)))).
          + rewrite (sumk_swap n n (fun k x => sumk n (fun y => Q k x y))). apply sumk_ext. intros x _. apply sumk_swap.
          + apply sumk_ext. intros k _. rewrite mm3, <- sumk_scale, <- sumk_opp. apply sumk_ext. intros x _. rewrite <- sumk_scale, <- sumk_opp. reflexivity. }
      set (M2 := madd (mm n A G) (fun a b => mm n G (fun k b => A b k) a b)).
      transitivity (- mm n S (mm n (madd M1 (mopp M2)) S) a b).
      { f_equal. apply mm_ext; auto. intros x y. apply mm_ext; auto. intros x' y'. unfold madd, mopp, M1, M2, mm, A, G. unfold madd. rewrite sumk_plus. unfold Rminus. f_equal. f_equal. f_equal. apply sumk_ext; intros; ring. }
      rewrite (mm_ext n S S (mm n (madd M1 (mopp M2)) S) (madd (mm n M1 S) (mopp (mm n M2 S)))); auto.
      2: { intros x y. rewrite mm_add_l, mm_opp_l. reflexivity. }
      rewrite mm_add_r, mm_opp_r, E1.
      assert (E2 : mm n S (mm n M2 S) a b = mm n S A a b + mm n (fun k b => A b k) S a b).
      { unfold M2. rewrite (mm_ext n S S (mm n (madd (mm n A G) (fun a b => mm n G (fun k b => A b k) a b)) S) (madd (mm n (mm n A G) S) (mm n (mm n G (fun k b => A b k)) S))); auto.
        2: { intros x y. rewrite mm_add_l. reflexivity. }
        rewrite mm_add_r. f_equal.
        - rewrite (mm_same n S S (mm n (mm n A G) S) A (fun _ _ _ _ => eq_refl)); auto. intros x y Hx Hy. rewrite <- mm_assoc.
          rewrite (mm_same n A A (mm n G S) unit_mat (fun _ _ _ _ => eq_refl) I1 x y Hx Hy). apply mm_unit_r; auto.
        - rewrite (mm_ext n S S (mm n (mm n G (fun k b => A b k)) S) (mm n G (mm n (fun k b => A b k) S))); auto; [|intros; rewrite mm_assoc; reflexivity].
          rewrite mm_assoc. rewrite (mm_same n (mm n S G) unit_mat _ (mm n (fun k b => A b k) S) I2 (fun _ _ _ _ => eq_refl) a b Ha Hb). apply mm_unit_l; auto. }
      rewrite E2. unfold mm, A, S. rewrite sumk_plus. rewrite (sumk_ext n (fun k => s k b t p * w a (inc k none) p) (fun c => w a (inc c none) p * s c b t p)) by (intros; ring). ring.
    Qed.
  End Metric.
  Theorem aspect_smooth a b : (a < n)%nat -> (b < n)%nat -> smooth (s a b).
  Proof. destruct normal_families as (e & He). exact (aspect_smooth_ e He a b). Qed.
  Theorem aspect_time a b t p ds : (a < n)%nat -> (b < n)%nat -> on t -> (forall k, (k < n)%nat -> deriv (Some k) (s a b) t p (ds k)) ->
    deriv None (s a b) t p (- sumk n (fun k => w k none p * ds k) + sumk n (fun k => s a k t p * w b (inc k none) p + s k b t p * w a (inc k none) p)).
  Proof. destruct normal_families as (e & He). exact (aspect_time_ e He a b t p ds). Qed.
End Members.
