(** Consistency of a right-hand side evaluated with consistent derivatives. *)
From Coq Require Import List Arith ZArith Bool Reals QArith Qreals String Lia Lra.
From Verif Require Import PyBase SymModel CodegenSpec ConsistSpec.
Import ListNotations.
Close Scope Q_scope.
Open Scope nat_scope.
Open Scope list_scope.
Open Scope R_scope.

Section Mean.
  Variables (coords : list string) (rpow : R -> R -> R) (W : sx -> multi -> point -> R) (kappa : sx -> R).
  Hypothesis POW : forall a n, rpow a (INR n) = a ^ n.
  (** a family of computations *)
  Variable I : Type.
  Variables (h : I -> R) (P : I -> list nat -> Prop) (pt : I -> list nat -> point).
  Variables (rho : I -> sx -> list nat -> R) (delta : I -> list (string * nat) -> (list nat -> R) -> list nat -> R) (M : R).
  Hypothesis HH : forall i, 0 <= h i <= M.
  Notation mean' i := (mean (list nat -> R) a_num a_add a_mul (a_pow rpow) (fun _ => 0) (fun _ => 1) (rho i) (fun c _ => kappa c) (delta i)).
  Notation exact' := (exact coords rpow W kappa).

  Definition good_function (f : sx) : Prop :=
    (exists B, forall p, Rabs (W f none p) <= B) /\ forall i js, P i js -> rho i f js = W f none (pt i js).
  Definition good_derivative (f : sx) (v : list (string * nat)) : Prop :=
    (exists B, forall p, Rabs (W f (orders coords v) p) <= B) /\
    exists C, forall i js, P i js -> Rabs (delta i v (rho i f) js - W f (orders coords v) (pt i js)) <= C * h i ^ 2.
  Definition fine (e : sx) : Prop :=
    (forall f l, In (SApp f l) (subterms e) -> good_function (SApp f l)) /\
    (forall f v, In (SDer f v) (subterms e) -> good_derivative f v).

  Definition bounded (a : point -> R) : Prop := exists B, 0 <= B /\ forall p, Rabs (a p) <= B.
  Definition close (a : I -> list nat -> R) (b : point -> R) : Prop :=
    exists C, 0 <= C /\ forall i js, P i js -> Rabs (a i js - b (pt i js)) <= C * h i ^ 2.
  Lemma bounded_intro a : (exists B, forall p, Rabs (a p) <= B) -> bounded a.
  Proof. intros [B H]. exists B. split; auto. eapply Rle_trans; [apply Rabs_pos|apply (H (fun _ => 0))]. Qed.
  Lemma sq_pos x : 0 <= x ^ 2.
  Proof. replace (x ^ 2) with (x * x) by ring. apply Rle_0_sqr. Qed.
  Lemma close_intro a b : (exists C, forall i js, P i js -> Rabs (a i js - b (pt i js)) <= C * h i ^ 2) -> close a b.
  Proof.
    intros [C H]. exists (Rabs C). split; [apply Rabs_pos|]. intros i js Hp. eapply Rle_trans; [apply H; auto|].
    apply Rmult_le_compat_r; [apply sq_pos|apply Rle_abs].
  Qed.
  Lemma close_exact a b : (forall i js, P i js -> a i js = b (pt i js)) -> close a b.
  Proof.
    intros H. exists 0. split; [lra|]. intros i js Hp. rewrite H by auto. rewrite Rminus_diag_eq, Rabs_R0 by auto. lra.
  Qed.
  Definition both (a : I -> list nat -> R) (b : point -> R) : Prop := bounded b /\ close a b.
  Lemma both_const c : both (fun _ _ => c) (fun _ => c).
  Proof. split; [apply bounded_intro; exists (Rabs c); intros; lra|apply close_exact; auto]. Qed.
  Lemma both_add a b a' b' : both a b -> both a' b' -> both (fun i js => a i js + a' i js) (fun p => b p + b' p).
  Proof.
    intros [(B & PB & HB) (C & PC & HC)] [(B' & PB' & HB') (C' & PC' & HC')]. split.
    - exists (B + B'). split; [lra|]. intros p. eapply Rle_trans; [apply Rabs_triang|]. specialize (HB p). specialize (HB' p). lra.
    - exists (C + C'). split; [lra|]. intros i js Hp. specialize (HC i js Hp). specialize (HC' i js Hp).
      replace (a i js + a' i js - (b (pt i js) + b' (pt i js))) with ((a i js - b (pt i js)) + (a' i js - b' (pt i js))) by ring.
      eapply Rle_trans; [apply Rabs_triang|]. lra.
  Qed.
  Lemma both_mul a b a' b' : both a b -> both a' b' -> both (fun i js => a i js * a' i js) (fun p => b p * b' p).
  Proof.
    intros [(B & PB & HB) (C & PC & HC)] [(B' & PB' & HB') (C' & PC' & HC')]. split.
    - exists (B * B'). split; [nra|]. intros p. rewrite Rabs_mult. apply Rmult_le_compat; auto using Rabs_pos.
    - assert (HM : forall i, h i ^ 2 <= M ^ 2) by (intros i; apply pow_incr; apply HH).
      assert (PM := sq_pos M).
      exists (C * (B' + C' * M ^ 2) + B * C'). split.
      { assert (0 <= C' * M ^ 2) by (apply Rmult_le_pos; auto). apply Rplus_le_le_0_compat; apply Rmult_le_pos; lra. }
      intros i js Hp. specialize (HC i js Hp). specialize (HC' i js Hp).
      specialize (HM i). pose proof (sq_pos (h i)) as PH.
      set (x := a i js) in *. set (y := b (pt i js)) in *. set (x' := a' i js) in *. set (y' := b' (pt i js)) in *.
      replace (x * x' - y * y') with ((x - y) * x' + y * (x' - y')) by ring.
      eapply Rle_trans; [apply Rabs_triang|]. rewrite !Rabs_mult.
      assert (X' : Rabs x' <= B' + C' * M ^ 2).
      { replace x' with (y' + (x' - y')) by ring. eapply Rle_trans; [apply Rabs_triang|].
        apply Rplus_le_compat; [apply HB'|]. eapply Rle_trans; [exact HC'|]. apply Rmult_le_compat_l; auto. }
      assert (T1 : Rabs (x - y) * Rabs x' <= C * h i ^ 2 * (B' + C' * M ^ 2)) by (apply Rmult_le_compat; auto using Rabs_pos).
      assert (T2 : Rabs y * Rabs (x' - y') <= B * (C' * h i ^ 2)) by (apply Rmult_le_compat; auto using Rabs_pos; apply HB).
      rewrite Rmult_plus_distr_r. lra.
  Qed.
  Lemma both_pow a b n : both a b -> both (fun i js => a i js ^ n) (fun p => b p ^ n).
  Proof. intros H. induction n as [|n IH]; cbn [pow]; [apply both_const|]. apply both_mul; auto. Qed.

  Lemma num_INR n : Q2R (Z.of_nat n # 1) = INR n.
  Proof. unfold Q2R. cbn [Qnum Qden]. rewrite INR_IZR_INZ. change (IZR (Z.pos 1)) with 1. field. Qed.

  Lemma fine_in e e' : In e' (subterms e) -> (forall y, In y (subterms e') -> In y (subterms e)) -> fine e -> fine e'.
  Proof. intros _ H [A B]. split; intros; [apply A|apply B]; auto. Qed.

  Lemma mean_pointwise e : pointwise e -> fine e -> forall i js, P i js -> mean' i e js = exact' e (pt i js).
  Proof.
    induction e using sx_ind'; intros PW F i js Hp; inversion PW; subst; try reflexivity.
    - cbn [mean exact]. apply (proj1 F); [left; reflexivity|auto].
    - match goal with H : Forall pointwise _ |- _ => rename H into A end. clear PW. cbn [mean exact].
      assert (G : forall y, In y (flat_map subterms l) -> In y (subterms (SAdd l))) by (intros; right; auto).
      assert (F' : (forall f0 l0, In (SApp f0 l0) (flat_map subterms l) -> good_function (SApp f0 l0)) /\
                   (forall f0 v, In (SDer f0 v) (flat_map subterms l) -> good_derivative f0 v)) by (split; intros; apply F; auto).
      clear F G. rename H into IHl. induction l as [|e l IH]; [reflexivity|].
      cbn [map fold_right]. inversion IHl; subst. inversion A; subst. unfold a_add at 1. f_equal.
      + apply H1; auto. split; intros; apply F'; cbn [flat_map]; apply in_or_app; auto.
      + apply IH; auto. split; intros; apply F'; cbn [flat_map]; apply in_or_app; auto.
    - match goal with H : Forall pointwise _ |- _ => rename H into A end. clear PW. cbn [mean exact].
      assert (F' : (forall f0 l0, In (SApp f0 l0) (flat_map subterms l) -> good_function (SApp f0 l0)) /\
                   (forall f0 v, In (SDer f0 v) (flat_map subterms l) -> good_derivative f0 v)) by (split; intros; apply F; right; auto).
      clear F. rename H into IHl. induction l as [|e l IH]; [reflexivity|].
      cbn [map fold_right]. inversion IHl; subst. inversion A; subst. unfold a_mul at 1. f_equal.
      + apply H1; auto. split; intros; apply F'; cbn [flat_map]; apply in_or_app; auto.
      + apply IH; auto. split; intros; apply F'; cbn [flat_map]; apply in_or_app; auto.
    - cbn [mean exact]. unfold a_pow. rewrite IHe1, IHe2; auto; split; intros; apply F; right; apply in_or_app; auto.
  Qed.

  Theorem mean_close e : algebraic coords rpow W kappa e -> fine e -> both (fun i => mean' i e) (exact' e).
  Proof.
    induction e using sx_ind'; intros AL F; inversion AL; subst; cbn [mean exact].
    - apply (both_const (Q2R q)).
    - apply (both_const (kappa (SSym k s))).
    - destruct (proj1 F f l) as [B G]; [left; auto|]. split; [apply bounded_intro; auto|apply close_exact; auto].
    - destruct (proj2 F (SApp f l) v) as [B G]; [left; auto|]. split; [apply bounded_intro; auto|apply close_intro; auto].
    - match goal with H : Forall (algebraic _ _ _ _) _ |- _ => rename H into A end. clear AL.
      assert (F' : (forall f0 l0, In (SApp f0 l0) (flat_map subterms l) -> good_function (SApp f0 l0)) /\
                   (forall f0 v, In (SDer f0 v) (flat_map subterms l) -> good_derivative f0 v)) by (split; intros; apply F; right; auto).
      clear F. rename H into IHl. induction l as [|e l IH]; [apply (both_const 0)|].
      cbn [map fold_right]. inversion IHl; subst. inversion A; subst.
      apply (both_add (fun i => mean' i e)).
      + apply H1; auto. split; intros; apply F'; cbn [flat_map]; apply in_or_app; auto.
      + apply IH; auto. split; intros; apply F'; cbn [flat_map]; apply in_or_app; auto.
    - match goal with H : Forall (algebraic _ _ _ _) _ |- _ => rename H into A end. clear AL.
      assert (F' : (forall f0 l0, In (SApp f0 l0) (flat_map subterms l) -> good_function (SApp f0 l0)) /\
                   (forall f0 v, In (SDer f0 v) (flat_map subterms l) -> good_derivative f0 v)) by (split; intros; apply F; right; auto).
      clear F. rename H into IHl. induction l as [|e l IH]; [apply (both_const 1)|].
      cbn [map fold_right]. inversion IHl; subst. inversion A; subst.
      apply (both_mul (fun i => mean' i e)).
      + apply H1; auto. split; intros; apply F'; cbn [flat_map]; apply in_or_app; auto.
      + apply IH; auto. split; intros; apply F'; cbn [flat_map]; apply in_or_app; auto.
    - (* natural exponent *)
      assert (E : both (fun i => mean' i e1) (exact' e1)).
      { apply IHe1; auto. split; intros; apply F; right; apply in_or_app; auto. }
      apply (both_pow _ _ n) in E. destruct E as [(B & PB & HB) (C & PC & HC)]. split.
      + exists B. split; auto. intros p. rewrite num_INR, POW. apply HB.
      + exists C. split; auto. intros i js Hp. unfold a_pow, a_num. cbn [mean exact].
        rewrite num_INR, !POW. apply (HC i js Hp).
    - split; [apply bounded_intro; auto|]. apply close_exact. intros i js Hp. unfold a_pow.
      rewrite (mean_pointwise e1), (mean_pointwise e2); auto; split; intros; apply F; right; apply in_or_app; auto.
  Qed.
End Mean.
