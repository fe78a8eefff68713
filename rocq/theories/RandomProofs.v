(** Proofs about israndom and Expectation. *)
From Coq Require Import List Arith Bool String QArith Qcanon Lia Ring.
From Verif Require Import PyBase PyBaseFacts SymModel RandomModel Reynolds RandomSpec.
Import ListNotations.
Close Scope Q_scope. Close Scope Qc_scope.
Open Scope nat_scope.
Open Scope string_scope.
Open Scope list_scope.
Open Scope py_scope.

(** ** traversals *)
Lemma smem_true x l : smem x l = true <-> In x l.
Proof. unfold smem. destruct in_dec; split; auto; discriminate. Qed.
Lemma smem_false x l : smem x l = false <-> ~ In x l.
Proof. unfold smem. destruct in_dec; split; auto; try discriminate; contradiction. Qed.
Lemma has_false s e : has s e = false <-> ~ In s (subterms e).
Proof. apply smem_false. Qed.
Lemma has_true s e : has s e = true <-> In s (subterms e).
Proof. apply smem_true. Qed.

Lemma subterms_self e : In e (subterms e).
Proof. destruct e; simpl; auto. Qed.

(** immediate arguments that are expressions *)
Inductive child : sx -> sx -> Prop :=
| ch_app f l x : In x l -> child x (SApp f l)
| ch_ex e : child e (SEx e)
| ch_der e v : child e (SDer e v)
| ch_int e l : child e (SInt e l)
| ch_bound e l p x : In p l -> In x (snd p) -> child x (SInt e l)
| ch_add l x : In x l -> child x (SAdd l)
| ch_mul l x : In x l -> child x (SMul l)
| ch_base b e : child b (SPow b e)
| ch_expo b e : child e (SPow b e)
| ch_oth h l x : In x l -> child x (SOth h l).

Lemma child_subterms x e : child x e -> incl (subterms x) (subterms e).
Proof.
  intros H y Hy. destruct H; simpl; right; auto;
    try (apply in_flat_map; eauto); try (apply in_or_app; auto).
  right. apply in_flat_map. exists p. split; auto. right. apply in_flat_map; eauto.
Qed.

Lemma subterms_inv x e : In x (subterms e) -> x = e \/ (exists k s, x = SSym k s) \/
  exists y, child y e /\ In x (subterms y).
Proof.
  destruct e; simpl; intros [H|H]; auto; try contradiction.
  - apply in_flat_map in H as (y & Hy & H). right. right. exists y. split; auto. constructor; auto.
  - right; right. exists e. split; auto. constructor.
  - apply in_app_or in H as [H|H].
    + right; right. exists e. split; auto. constructor.
    + apply in_map_iff in H as (p & <- & _). eauto.
  - apply in_app_or in H as [H|H].
    + right; right. exists e. split; auto. constructor.
    + apply in_flat_map in H as (p & Hp & [H|H]); [rewrite <- H; eauto|].
      apply in_flat_map in H as (y & Hy & H). right; right. exists y. split; auto.
      econstructor; eauto.
  - apply in_flat_map in H as (y & Hy & H). right; right. exists y. split; auto. constructor; auto.
  - apply in_flat_map in H as (y & Hy & H). right; right. exists y. split; auto. constructor; auto.
  - apply in_app_or in H as [H|H]; right; right.
    + exists e1. split; auto. constructor.
    + exists e2. split; auto. constructor.
  - apply in_flat_map in H as (y & Hy & H). right; right. exists y. split; auto. constructor; auto.
Qed.

Lemma by_child (P : sx -> Prop) : (forall e, (forall y, child y e -> P y) -> P e) -> forall e, P e.
Proof.
  intros H. induction e using sx_ind'; apply H; intros y Hc; inversion Hc; subst; auto;
    match goal with F : Forall _ _ |- _ => rewrite Forall_forall in F end; auto.
  match goal with F : forall x, In x l -> _, Hp : In _ l |- _ => specialize (F _ Hp); rewrite Forall_forall in F; auto end.
Qed.

Lemma subterms_trans x e : In x (subterms e) -> incl (subterms x) (subterms e).
Proof.
  revert x. induction e as [e IH] using by_child. intros x Hx.
  destruct (subterms_inv _ _ Hx) as [->|[(k & s & ->)|(y & Hc & Hy)]].
  - apply incl_refl.
  - intros z [<-|[]]. exact Hx.
  - intros z Hz. eapply child_subterms; [exact Hc|]. eapply IH; eauto.
Qed.

Lemma has_child s x e : child x e -> has s e = false -> has s x = false.
Proof. intros H. rewrite !has_false. intros N Hs. apply N. eapply child_subterms; eauto. Qed.

Lemma bounds_child x e : child x e -> bounds_ok e -> bounds_ok x.
Proof. intros H B a ls p b Hin. eapply B. eapply child_subterms; eauto. Qed.
Lemma mixed_child x e : child x e -> no_mixed e -> no_mixed x.
Proof.
  intros H [B C]. split; intros; [eapply B|eapply C]; eapply child_subterms; eauto.
Qed.
Lemma exfree_child x e : child x e -> ex_free e -> ex_free x.
Proof. intros H B a Ha. eapply B. eapply child_subterms; eauto. Qed.

(** ** any *)
Lemma anyM_false {A} (f : A -> res bool) l :
  anyM f l = Ok false <-> Forall (fun x => f x = Ok false) l.
Proof.
  induction l as [|x r IH]; simpl; [split; auto|]. split.
  - destruct (f x) as [[|]|] eqn:E; simpl; try discriminate. intros H. constructor; auto. apply IH; auto.
  - intros H. inversion H; subst. rewrite H2. simpl. apply IH; auto.
Qed.
Lemma anyM_true {A} (f : A -> res bool) l :
  anyM f l = Ok true -> exists x, In x l /\ f x = Ok true.
Proof.
  induction l as [|x r IH]; simpl; [discriminate|].
  destruct (f x) as [[|]|] eqn:E; simpl; try discriminate.
  - intros _. exists x; auto.
  - intros H. destruct (IH H) as (y & Hy & Ey). exists y; auto.
Qed.

Lemma israndom_has e : israndom e = Ok true -> has omega e = true.
Proof.
  intros H. destruct (has omega e) eqn:E; auto.
  assert (israndom e = Ok false); [|congruence].
  destruct e; auto; cbn [israndom]; rewrite E; auto.
Qed.
Lemma has_israndom e : has omega e = false -> israndom e = Ok false.
Proof. intros E. destruct e; auto; cbn [israndom]; rewrite E; auto. Qed.

(** ** meaning *)
Section Meaning.
  Context {A : RAlg} {I : interp A} (L : lawful I).
  Add Ring A_ring : (c_th A).

  Lemma det_iter c n (a : A) : det a -> det (Nat.iter n (dd c) a).
  Proof. intros H. induction n; simpl; auto. apply det_dd; auto. Qed.
  Lemma det_ders v (a : A) : det a -> det (ders v a).
  Proof. induction v as [|[c n] r IH]; simpl; auto. intros. apply det_iter; auto. Qed.
  Lemma EE_iter c n (a : A) : EE (Nat.iter n (dd c) a) = Nat.iter n (dd c) (EE a).
  Proof. induction n; simpl; auto. rewrite EE_dd, IHn. reflexivity. Qed.
  Lemma EE_ders v (a : A) : EE (ders v a) = ders v (EE a).
  Proof. induction v as [|[c n] r IH]; simpl; auto. rewrite EE_iter, IH. reflexivity. Qed.
  Lemma det_sum (l : list A) : Forall det l -> det (fold_right cadd c0 l).
  Proof. induction 1; simpl; [apply det_0 | apply det_add; auto]. Qed.
  Lemma det_prod (l : list A) : Forall det l -> det (fold_right cmul c1 l).
  Proof. induction 1; simpl; [apply det_1 | apply det_mul; auto]. Qed.
  Lemma EE_sum (l : list A) : EE (fold_right cadd c0 l) = fold_right cadd c0 (map EE l).
  Proof. induction l; simpl; [apply EE_0|]. rewrite EE_add, IHl. reflexivity. Qed.

  Lemma Forall_map_det l : Forall (fun x => det (value I x)) l -> Forall det (map (value I) l).
  Proof. induction 1; simpl; auto. Qed.

  Lemma forall_det_map (P : sx -> Prop) l :
    Forall (fun x => P x -> det (value I x)) l -> Forall P l -> Forall det (map (value I) l).
  Proof. intros H. induction H; intros Q; simpl; auto. inversion Q; subst. constructor; auto. Qed.

  Lemma det_int a ls : det a -> Forall (fun p => Forall det (snd p)) ls -> det (i_int I a ls).
  Proof. intros H B. unfold det. rewrite (l_int I L) by auto. rewrite H. reflexivity. Qed.

  Lemma no_omega_det e : has omega e = false -> det (value I e).
  Proof.
    induction e using sx_ind'; intros N; simpl.
    - apply det_cq.
    - apply (l_sym I L). intros E. apply has_false in N. apply N. rewrite <- E. apply subterms_self.
    - apply (l_fun I L). eapply forall_det_map; [exact H|]. apply Forall_forall. intros x Hx.
      eapply has_child; eauto. constructor; auto.
    - apply det_EE.
    - apply det_ders. apply IHe. eapply has_child; eauto. constructor.
    - apply det_int.
      + apply IHe. eapply has_child; eauto. constructor.
      + apply Forall_forall. intros p Hp. apply in_map_iff in Hp as (q & <- & Hq). simpl.
        rewrite Forall_forall in H. specialize (H q Hq).
        eapply forall_det_map; [exact H|]. apply Forall_forall. intros x Hx.
        eapply has_child; eauto. econstructor; eauto.
    - apply det_sum. eapply forall_det_map; [exact H|]. apply Forall_forall. intros x Hx.
      eapply has_child; eauto. constructor; auto.
    - apply det_prod. eapply forall_det_map; [exact H|]. apply Forall_forall. intros x Hx.
      eapply has_child; eauto. constructor; auto.
    - apply (l_pow I L); [apply IHe1|apply IHe2]; eapply has_child; eauto; constructor.
    - apply (l_oth I L). eapply forall_det_map; [exact H|]. apply Forall_forall. intros x Hx.
      eapply has_child; eauto. constructor; auto.
  Qed.

  Definition detP (x : sx) := bounds_ok x /\ israndom x = Ok false.

  Lemma forall_det_map2 l :
    Forall (fun x => bounds_ok x -> israndom x = Ok false -> det (value I x)) l ->
    Forall detP l -> Forall det (map (value I) l).
  Proof.
    intros H. induction H; intros Q; simpl; auto. inversion Q; subst. destruct H3. constructor; auto.
  Qed.

  Lemma israndom_det e : bounds_ok e -> israndom e = Ok false -> det (value I e).
  Proof.
    induction e using sx_ind'; intros B R;
      match goal with |- det (value I ?x) => destruct (has omega x) eqn:N end;
      try (apply no_omega_det; exact N).
    - cbn [israndom] in R; rewrite N in R; cbn [negb] in R; discriminate.
    - cbn [israndom] in R; rewrite N in R; cbn [negb] in R. injection R. intros R'. apply (l_sym I L).
      destruct (sx_eq_dec (SSym k s) omega); congruence.
    - cbn [israndom] in R; rewrite N in R; cbn [negb] in R. apply anyM_false in R. simpl. apply (l_fun I L).
      apply forall_det_map2; auto. rewrite Forall_forall in *. intros x Hx. split; auto.
      eapply bounds_child; eauto. constructor; auto.
    - apply det_EE.
    - cbn [israndom] in R; rewrite N in R; cbn [negb] in R. simpl. apply det_ders. apply IHe; auto.
      eapply bounds_child; eauto. constructor.
    - cbn [israndom] in R; rewrite N in R; cbn [negb] in R. simpl. apply det_int.
      + apply IHe; auto. eapply bounds_child; eauto. constructor.
      + apply Forall_forall. intros p Hp. apply in_map_iff in Hp as (q & <- & Hq). simpl.
        rewrite Forall_forall in H. apply forall_det_map2; [apply H; auto|].
        apply Forall_forall. intros x Hx. split.
        * eapply bounds_child; eauto. econstructor; eauto.
        * eapply B; eauto. apply subterms_self.
    - cbn [israndom] in R; rewrite N in R; cbn [negb] in R. apply anyM_false in R. simpl. apply det_sum.
      apply forall_det_map2; auto. rewrite Forall_forall in *. intros x Hx. split; auto.
      eapply bounds_child; eauto. constructor; auto.
    - cbn [israndom] in R; rewrite N in R; cbn [negb] in R. apply anyM_false in R. simpl. apply det_prod.
      apply forall_det_map2; auto. rewrite Forall_forall in *. intros x Hx. split; auto.
      eapply bounds_child; eauto. constructor; auto.
    - cbn [israndom] in R; rewrite N in R; cbn [negb] in R. apply anyM_false in R.
      inversion R as [|? ? R1 R2]; subst. inversion R2 as [|? ? R3 _]; subst. simpl.
      apply (l_pow I L); [apply IHe1|apply IHe2]; auto; eapply bounds_child; eauto; constructor.
    - cbn [israndom] in R; rewrite N in R; cbn [negb] in R; discriminate.
  Qed.

  (** ** the split into factors *)
  Lemma split_spec l p : split_factors l = Ok p ->
    (forall x, In x (fst p) -> In x l /\ israndom x = Ok false) /\
    (forall x, In x (snd p) -> In x l /\ israndom x = Ok true) /\
    (forall x, In x l -> In x (fst p) \/ In x (snd p)) /\
    fold_right cmul c1 (map (value I) l) =
      cmul (fold_right cmul c1 (map (value I) (fst p))) (fold_right cmul c1 (map (value I) (snd p))).
  Proof.
    revert p. induction l as [|x r IH]; simpl; intros p.
    - injection 1 as <-. simpl. repeat split; try (intros; contradiction); auto. ring.
    - destruct (israndom x) as [b|] eqn:E; simpl; [|discriminate].
      destruct (split_factors r) as [q|] eqn:F; simpl; [|discriminate].
      destruct (IH q eq_refl) as (P1 & P2 & P3 & P4). injection 1 as <-.
      destruct b; simpl; (split; [|split; [|split]]).
      + intros y Hy. destruct (P1 y Hy); auto.
      + intros y [<-|Hy]; auto. destruct (P2 y Hy); auto.
      + intros y [->|Hy]; auto. destruct (P3 y Hy); auto.
      + rewrite P4. ring.
      + intros y [<-|Hy]; auto. destruct (P1 y Hy); auto.
      + intros y Hy. destruct (P2 y Hy); auto.
      + intros y [->|Hy]; auto. destruct (P3 y Hy); auto.
      + rewrite P4. ring.
  Qed.

  Lemma value_mul_of l : value I (mul_of l) = fold_right cmul c1 (map (value I) l).
  Proof.
    destruct l as [|x [|y r]]; simpl.
    - apply cq_1.
    - ring.
    - reflexivity.
  Qed.
  Lemma value_add_of l : value I (add_of l) = fold_right cadd c0 (map (value I) l).
  Proof.
    destruct l as [|x [|y r]]; simpl.
    - apply cq_0.
    - ring.
    - reflexivity.
  Qed.

  Lemma mul_of_child P l : (forall x, In x l -> P x) -> P (SNum 1%Q) -> (forall l, (forall x, In x l -> P x) -> P (SMul l)) ->
    P (mul_of l).
  Proof. intros H H1 HM. destruct l as [|x [|y r]]; simpl; auto. apply H; simpl; auto. Qed.
End Meaning.

Lemma bounds_mul l : (forall x, In x l -> bounds_ok x) -> bounds_ok (SMul l).
Proof.
  intros H a ls p b [E|Hin]; [discriminate|]. apply in_flat_map in Hin as (x & Hx & Hin).
  eapply H; eauto.
Qed.
Lemma bounds_add l : (forall x, In x l -> bounds_ok x) -> bounds_ok (SAdd l).
Proof.
  intros H a ls p b [E|Hin]; [discriminate|]. apply in_flat_map in Hin as (x & Hx & Hin).
  eapply H; eauto.
Qed.
Lemma bounds_num q : bounds_ok (SNum q).
Proof. intros a ls p b [E|[]]. discriminate. Qed.
Lemma mixed_mul l : (forall x, In x l -> no_mixed x) -> no_mixed (SMul l).
Proof.
  intros H. split; intros ? ? [E|Hin]; try discriminate; apply in_flat_map in Hin as (x & Hx & Hin);
  eapply (H x Hx); eauto.
Qed.
Lemma mixed_add l : (forall x, In x l -> no_mixed x) -> no_mixed (SAdd l).
Proof.
  intros H. split; intros ? ? [E|Hin]; try discriminate; apply in_flat_map in Hin as (x & Hx & Hin);
  eapply (H x Hx); eauto.
Qed.
Lemma mixed_num q : no_mixed (SNum q).
Proof. split; intros ? ? [E|[]]; discriminate. Qed.
Lemma exfree_mul l : (forall x, In x l -> ex_free x) -> ex_free (SMul l).
Proof.
  intros H a [E|Hin]; [discriminate|]. apply in_flat_map in Hin as (x & Hx & Hin). eapply H; eauto.
Qed.
Lemma exfree_add l : (forall x, In x l -> ex_free x) -> ex_free (SAdd l).
Proof.
  intros H a [E|Hin]; [discriminate|]. apply in_flat_map in Hin as (x & Hx & Hin). eapply H; eauto.
Qed.
Lemma exfree_num q : ex_free (SNum q).
Proof. intros a [E|[]]. discriminate. Qed.

Lemma mapM_In {A B} (f : A -> res B) l l' y : mapM f l = Ok l' -> In y l' -> exists x, In x l /\ f x = Ok y.
Proof.
  revert l'. induction l as [|x r IH]; simpl; intros l'.
  - injection 1 as <-. contradiction.
  - destruct (f x) eqn:E; simpl; [|discriminate]. destruct (mapM f r) eqn:F; simpl; [|discriminate].
    injection 1 as <-. intros [<-|Hy]; [exists x; auto|].
    destruct (IH _ eq_refl Hy) as (z & Hz & Ez). exists z; auto.
Qed.

Lemma split_fst l p : split_factors l = Ok p -> forall x, In x (fst p) -> In x l /\ israndom x = Ok false.
Proof.
  revert p. induction l as [|y r IH]; simpl; intros p.
  - injection 1 as <-. contradiction.
  - destruct (israndom y) as [b|] eqn:E; simpl; [|discriminate].
    destruct (split_factors r) as [q|] eqn:F; simpl; [|discriminate].
    injection 1 as <-. intros x. destruct b; simpl.
    + intros Hx. destruct (IH q eq_refl x Hx). auto.
    + intros [<-|Hx]; auto. destruct (IH q eq_refl x Hx). auto.
Qed.
Lemma split_snd l p : split_factors l = Ok p -> forall x, In x (snd p) -> In x l /\ israndom x = Ok true.
Proof.
  revert p. induction l as [|y r IH]; simpl; intros p.
  - injection 1 as <-. contradiction.
  - destruct (israndom y) as [b|] eqn:E; simpl; [|discriminate].
    destruct (split_factors r) as [q|] eqn:F; simpl; [|discriminate].
    injection 1 as <-. intros x. destruct b; simpl.
    + intros [<-|Hx]; auto. destruct (IH q eq_refl x Hx). auto.
    + intros Hx. destruct (IH q eq_refl x Hx). auto.
Qed.
Lemma split_all l p : split_factors l = Ok p -> forall x, In x l -> israndom x = Ok false -> In x (fst p).
Proof.
  revert p. induction l as [|y r IH]; simpl; intros p.
  - contradiction.
  - destruct (israndom y) as [b|] eqn:E; simpl; [|discriminate].
    destruct (split_factors r) as [q|] eqn:F; simpl; [|discriminate].
    injection 1 as <-. intros x [->|Hx] R.
    + rewrite R in E. injection E as <-. simpl. auto.
    + pose proof (IH q eq_refl x Hx R). destruct b; simpl; auto.
Qed.
