(** Soundness of Expectation.eval, determinism of its result, a concrete expansion. *)
From Coq Require Import List Arith Bool String QArith Qcanon Lia Ring.
From Verif Require Import PyBase PyBaseFacts SymModel RandomModel Reynolds RandomSpec RandomProofs.
Import ListNotations.
Close Scope Q_scope. Close Scope Qc_scope.
Open Scope nat_scope.
Open Scope string_scope.
Open Scope list_scope.
Open Scope py_scope.

(** ** israndom of the shapes the code builds *)
Lemma israndom_add l : Forall (fun x => israndom x = Ok false) l -> israndom (SAdd l) = Ok false.
Proof.
  intros H. cbn [israndom]. destruct (has omega (SAdd l)); cbn [negb]; auto. apply anyM_false; auto.
Qed.
Lemma israndom_mul l : Forall (fun x => israndom x = Ok false) l -> israndom (SMul l) = Ok false.
Proof.
  intros H. cbn [israndom]. destruct (has omega (SMul l)); cbn [negb]; auto. apply anyM_false; auto.
Qed.
Lemma israndom_mul_of l : Forall (fun x => israndom x = Ok false) l -> israndom (mul_of l) = Ok false.
Proof.
  intros H. destruct l as [|x [|y r]]; [reflexivity| |]; simpl mul_of.
  - inversion H; auto.
  - apply israndom_mul; auto.
Qed.
Lemma israndom_der m v : israndom m = Ok false -> israndom (SDer m v) = Ok false.
Proof. intros H. cbn [israndom]. destruct (has omega (SDer m v)); cbn [negb]; auto. Qed.
Lemma israndom_int m v : israndom m = Ok false -> israndom (SInt m v) = Ok false.
Proof. intros H. cbn [israndom]. destruct (has omega (SInt m v)); cbn [negb]; auto. Qed.

Lemma is_one_inv e : is_one e = true -> e = SNum 1%Q.
Proof. unfold is_one. destruct sx_eq_dec; auto; discriminate. Qed.

Section WithExpand.
  Variable expand : sx -> sx.

  Lemma expectation_det n e r : expectation expand n e = Ok r -> israndom r = Ok false.
  Proof.
    revert e r. induction n as [|n IH]; intros e r; cbn [expectation]; [discriminate|].
    destruct (israndom (expand e)) as [b|] eqn:R; [|discriminate]. cbn [bind].
    destruct b; cbn [negb]; [|injection 1 as <-; auto].
    destruct (expand e) as [| | | |a v|a v|l|l| |]; try (injection 1 as <-; reflexivity).
    - destruct v as [|x v]; [discriminate|].
      destruct (expectation expand n a) as [m|] eqn:E; [|discriminate]. injection 1 as <-.
      apply israndom_der. eauto.
    - destruct v as [|x v]; [discriminate|].
      destruct (expectation expand n a) as [m|] eqn:E; [|discriminate]. injection 1 as <-.
      apply israndom_int. eauto.
    - destruct (mapM _ l) as [l'|] eqn:E; [|discriminate]. injection 1 as <-.
      apply israndom_add. apply Forall_forall. intros x Hx.
      destruct (mapM_In _ _ _ _ E Hx) as (y & _ & Hy). eauto.
    - destruct (split_factors l) as [p|] eqn:E; [|discriminate]. cbn [bind].
      destruct (is_one _); [injection 1 as <-; reflexivity|].
      destruct (expectation expand n (mul_of (snd p))) as [m|] eqn:F; [|discriminate].
      injection 1 as <-. apply israndom_mul. repeat constructor.
      + apply israndom_mul_of. apply Forall_forall. intros x Hx. eapply split_fst; eauto.
      + eauto.
  Qed.

  Lemma expectation_again k e :
    israndom (expand e) = Ok false -> expectation expand (S k) e = Ok (expand e).
  Proof. intros H. cbn [expectation]. rewrite H. reflexivity. Qed.

  Hypothesis X : expansion expand.

  Lemma expectation_sound {A : RAlg} (I : interp A) (L : lawful I) n e r :
    bounds_ok e -> alone_single expand n e -> expectation expand n e = Ok r ->
    value I r = EE (value I e).
  Proof.
    revert e r. induction n as [|n IH]; intros e r; cbn [expectation alone_single]; [discriminate|].
    intros B AS. pose proof (x_bounds _ X _ B) as B'.
    rewrite <- (x_value _ X A I L e).
    destruct (israndom (expand e)) as [b|] eqn:R; [|discriminate]. cbn [bind].
    destruct b; cbn [negb].
    2:{ injection 1 as <-. symmetry. apply (israndom_det L); auto. }
    specialize (AS eq_refl).
    destruct (expand e) as [| | | |a v|a v|l|l| |]; try (injection 1 as <-; reflexivity).
    - destruct AS as [LV AS]. destruct v as [|x [|y v]]; try discriminate.
      destruct (expectation expand n a) as [m|] eqn:E; [|discriminate]. injection 1 as <-.
      cbn [value]. rewrite EE_ders. f_equal. apply IH; auto.
      eapply bounds_child; eauto. constructor.
    - destruct AS as [LV AS]. destruct v as [|x [|y v]]; try discriminate.
      destruct (expectation expand n a) as [m|] eqn:E; [|discriminate]. injection 1 as <-.
      cbn [value]. rewrite (l_int I L).
      + f_equal. apply IH; auto. eapply bounds_child; eauto. constructor.
      + repeat constructor. cbn [snd]. apply Forall_forall. intros y Hy.
        apply in_map_iff in Hy as (b & <- & Hb). apply (israndom_det L).
        * eapply bounds_child; eauto. econstructor; simpl; eauto.
        * eapply B'; [apply subterms_self|left; reflexivity|auto].
    - destruct (mapM _ l) as [l'|] eqn:E; [|discriminate]. injection 1 as <-.
      cbn [value]. rewrite EE_sum, map_map. f_equal.
      assert (Bl : forall x, In x l -> bounds_ok x).
      { intros x Hx. eapply bounds_child; eauto. constructor; auto. }
      clear R B'. revert l' E. induction l as [|x l IHl]; cbn [mapM]; intros l'.
      + injection 1 as <-. reflexivity.
      + destruct (expectation expand n x) as [y|] eqn:Ey; [|discriminate]. cbn [bind].
        destruct (mapM _ l) as [ys|] eqn:Eys; [|discriminate]. injection 1 as <-. cbn [map].
        inversion AS; subst. f_equal.
        * apply IH; auto. apply Bl; simpl; auto.
        * apply IHl; auto. intros; apply Bl; simpl; auto.
    - destruct (split_factors l) as [p|] eqn:E; [|discriminate]. cbn [bind].
      destruct (is_one _) eqn:O; [injection 1 as <-; reflexivity|].
      destruct (expectation expand n (mul_of (snd p))) as [m|] eqn:F; [|discriminate].
      injection 1 as <-.
      destruct (split_spec (I := I) _ _ E) as (P1 & P2 & _ & P4).
      cbn [value map fold_right]. rewrite P4.
      assert (Bl : forall x, In x l -> bounds_ok x).
      { intros x Hx. eapply bounds_child; eauto. constructor; auto. }
      rewrite EE_det_l.
      + rewrite value_mul_of. f_equal. rewrite <- value_mul_of.
        rewrite (IH _ _ (mul_of_child bounds_ok _ (fun x Hx => Bl x (proj1 (P2 x Hx))) (bounds_num _) bounds_mul)
                   (AS p eq_refl) F).
        destruct (c_th A). rewrite Rmul_comm. apply Rmul_1_l.
      + apply det_prod. apply Forall_forall. intros y Hy. apply in_map_iff in Hy as (x & <- & Hx).
        destruct (P1 x Hx). apply (israndom_det L); auto.
  Qed.
End WithExpand.

(** ** the static condition *)
Lemma mixed_alone expand : expansion expand -> forall n e, no_mixed e -> alone_single expand n e.
Proof.
  intros X n. induction n as [|n IH]; intros e M; simpl; [exact Logic.I|].
  intros _. pose proof (x_mixed _ X _ M) as M'.
  destruct (expand e) as [| | | |a v|a v|l|l| |]; auto.
  - split; [apply M' with a; apply subterms_self|]. apply IH. eapply mixed_child; eauto. constructor.
  - split; [apply M' with a; apply subterms_self|]. apply IH. eapply mixed_child; eauto. constructor.
  - apply Forall_forall. intros x Hx. apply IH. eapply mixed_child; eauto. constructor; auto.
  - intros p Hp. apply IH. apply mul_of_child.
    + intros x Hx. eapply mixed_child; [|exact M']. constructor. eapply split_snd; eauto.
    + apply mixed_num.
    + apply mixed_mul.
Qed.

(** ** what remains unevaluated *)
Lemma expectation_irreducible expand : expansion expand -> forall n e r,
  ex_free e -> expectation expand n e = Ok r ->
  forall a, In (SEx a) (subterms r) -> irreducible a.
Proof.
  intros X n. induction n as [|n IH]; intros e r; cbn [expectation]; [discriminate|].
  intros Fr. pose proof (x_free _ X _ Fr) as Fr'.
  assert (Leaf : forall b, ex_free b -> israndom b = Ok true ->
     (forall l, b <> SAdd l) -> (forall c v, b <> SDer c v) -> (forall c v, b <> SInt c v) ->
     (forall l, b = SMul l -> forall x, In x l -> israndom x = Ok false -> x = SNum 1%Q) ->
     forall a, In (SEx a) (subterms (SEx b)) -> irreducible a).
  { intros b Fb Rb H1 H2 H3 H4 a [E|H]; [|destruct (Fb _ H)]. injection E as <-. constructor; auto. }
  destruct (israndom (expand e)) as [b|] eqn:R; [|discriminate]. cbn [bind].
  destruct b; cbn [negb].
  2:{ injection 1 as <-. intros a Ha. destruct (Fr' _ Ha). }
  destruct (expand e) as [| | | |c v|c v|l|l| |] eqn:Ee;
    try (injection 1 as <-; apply Leaf; auto; congruence).
  - destruct v as [|x v]; [discriminate|].
    destruct (expectation expand n c) as [m|] eqn:E; [|discriminate]. injection 1 as <-.
    intros a [F|H]; [discriminate|]. apply in_app_or in H as [H|[H|[]]]; [|discriminate].
    eapply IH; [|exact E|exact H]. eapply exfree_child; [|exact Fr']. constructor.
  - destruct v as [|x v]; [discriminate|].
    destruct (expectation expand n c) as [m|] eqn:E; [|discriminate]. injection 1 as <-.
    intros a [F|H]; [discriminate|]. apply in_app_or in H as [H|H].
    + eapply IH; [|exact E|exact H]. eapply exfree_child; [|exact Fr']. constructor.
    + simpl in H. destruct H as [H|H]; [discriminate|]. rewrite app_nil_r in H.
      apply in_flat_map in H as (y & Hy & H).
      exfalso. apply (Fr' a). simpl. right. apply in_or_app. right. right. apply in_or_app. left.
      apply in_flat_map. eauto.
  - destruct (mapM _ l) as [l'|] eqn:E; [|discriminate]. injection 1 as <-.
    intros a [F|H]; [discriminate|]. apply in_flat_map in H as (y & Hy & H).
    destruct (mapM_In _ _ _ _ E Hy) as (x & Hx & Ex).
    eapply IH; [|exact Ex|exact H]. eapply exfree_child; [|exact Fr']. constructor; auto.
  - destruct (split_factors l) as [p|] eqn:E; [|discriminate]. cbn [bind].
    destruct (is_one _) eqn:O.
    + injection 1 as <-. apply Leaf; auto; try congruence.
      intros l0 H x Hx Rx. injection H as <-. pose proof (split_all _ _ E x Hx Rx) as Hf.
      apply is_one_inv in O. destruct (fst p) as [|y [|z q]]; [contradiction| |discriminate].
      simpl in O. destruct Hf as [<-|[]]. exact O.
    + destruct (expectation expand n (mul_of (snd p))) as [m|] eqn:F; [|discriminate].
      injection 1 as <-. intros a H.
      assert (Hl : forall x, In x l -> ex_free x).
      { intros x Hx. eapply exfree_child; [|exact Fr']. constructor; auto. }
      destruct H as [H|H]; [discriminate|]. simpl in H. apply in_app_or in H as [H|H].
      * exfalso. assert (Q : ex_free (mul_of (fst p))); [|exact (Q _ H)].
        apply mul_of_child with (P := ex_free).
        -- intros x Hx. apply Hl. eapply split_fst; eauto.
        -- apply exfree_num.
        -- apply exfree_mul.
      * rewrite app_nil_r in H. eapply IH; [|exact F|exact H]. apply mul_of_child with (P := ex_free).
        -- intros x Hx. apply Hl. eapply split_snd; eauto.
        -- apply exfree_num.
        -- apply exfree_mul.
Qed.

(** ** the distributing expansion is one *)
Lemma in_cross a b m : In m (cross a b) <-> exists x y, In x a /\ In y b /\ m = x ++ y.
Proof.
  unfold cross. rewrite in_flat_map. split.
  - intros (x & Hx & H). apply in_map_iff in H as (y & <- & Hy). eauto 6.
  - intros (x & y & Hx & Hy & ->). exists x. split; [auto|]. apply in_map; auto.
Qed.

Fixpoint terms_list (l : list sx) : list (list sx) :=
  match l with [] => [[]] | x :: r => cross (terms x) (terms_list r) end.
Lemma terms_mul l : terms (SMul l) = terms_list l.
Proof. simpl. induction l as [|x r IH]; simpl; congruence. Qed.

(** a property of factors that holds of an expression whenever it holds of its summands,
    factors and bases holds of the factors of its terms *)
Lemma terms_factors (P : sx -> Prop) :
  (forall l x, P (SAdd l) -> In x l -> P x) -> (forall l x, P (SMul l) -> In x l -> P x) ->
  (forall b x, P (SPow b x) -> P b) ->
  forall e, P e -> forall m, In m (terms e) -> Forall P m.
Proof.
  intros HA HM HP.
  induction e as [| | | | | |l IH|l IH|b x IHb _|] using sx_ind';
    intros Pe m; try (intros [<-|[]]; repeat constructor; assumption).
  - simpl. rewrite in_flat_map. intros (x & Hx & Hm). rewrite Forall_forall in IH.
    eapply IH; eauto.
  - rewrite terms_mul. assert (Q : forall x, In x l -> P x) by eauto. clear Pe.
    revert m. induction IH as [|x r H1 _ IHl]; simpl; intros m.
    + intros [<-|[]]. constructor.
    + rewrite in_cross. intros (u & v & Hu & Hv & ->). apply Forall_app. split.
      * apply H1; auto. apply Q; simpl; auto.
      * apply IHl; auto. intros; apply Q; simpl; auto.
  - simpl. destruct (nat_exponent x) as [n|]; [|intros [<-|[]]; repeat constructor; assumption].
    revert m. induction n as [|n IHn]; simpl; intros m.
    + intros [<-|[]]. constructor.
    + rewrite in_cross. intros (u & v & Hu & Hv & ->). apply Forall_app. split; eauto.
Qed.

Lemma distribute_prop (P : sx -> Prop) :
  (forall l x, P (SAdd l) -> In x l -> P x) -> (forall l x, P (SMul l) -> In x l -> P x) ->
  (forall b x, P (SPow b x) -> P b) ->
  (forall q, P (SNum q)) -> (forall l, (forall x, In x l -> P x) -> P (SMul l)) ->
  (forall l, (forall x, In x l -> P x) -> P (SAdd l)) ->
  forall e, P e -> P (distribute e).
Proof.
  intros HA HM HP HN IM IA e Pe. unfold distribute.
  assert (Q : forall x, In x (map mul_of (terms e)) -> P x).
  { intros x Hx. apply in_map_iff in Hx as (m & <- & Hm). apply mul_of_child; auto.
    intros y Hy. pose proof (terms_factors P HA HM HP e Pe m Hm) as F.
    rewrite Forall_forall in F. auto. }
  destruct (map mul_of (terms e)) as [|x [|y r]]; simpl; auto. apply Q; simpl; auto.
Qed.

Section Distribute.
  Context {A : RAlg} (I : interp A) (L : lawful I).
  Add Ring A_ring2 : (c_th A).

  Definition pv (m : list sx) : A := fold_right cmul c1 (map (value I) m).
  Definition sv (t : list (list sx)) : A := fold_right cadd c0 (map pv t).

  Lemma pv_app a b : pv (a ++ b) = cmul (pv a) (pv b).
  Proof. unfold pv. induction a as [|x r IH]; simpl; [ring|]. rewrite IH. ring. Qed.
  Lemma sv_app a b : sv (a ++ b) = cadd (sv a) (sv b).
  Proof. unfold sv. induction a as [|x r IH]; simpl; [ring|]. rewrite IH. ring. Qed.
  Lemma sv_cross a b : sv (cross a b) = cmul (sv a) (sv b).
  Proof.
    unfold cross. induction a as [|x r IH]; simpl; [unfold sv; simpl; ring|].
    rewrite sv_app, IH.
    assert (E : sv (map (fun y => x ++ y) b) = cmul (pv x) (sv b)).
    { clear IH. unfold sv. induction b as [|y b IHb]; simpl; [ring|]. rewrite IHb, pv_app. ring. }
    rewrite E. change (sv (x :: r)) with (cadd (pv x) (sv r)). ring.
  Qed.
  Lemma sv_power n a : sv (power n a) = cpow (sv a) n.
  Proof. induction n as [|n IH]; simpl; [unfold sv, pv; simpl; ring|]. rewrite sv_cross, IH. ring. Qed.

  Lemma sv_terms e : sv (terms e) = value I e.
  Proof.
    induction e as [| | | | | |l IH|l IH|b x IHb _|] using sx_ind';
      try (unfold sv, pv; simpl; ring).
    - simpl. induction IH as [|x r H _ IHl]; simpl; [unfold sv; simpl; ring|].
      rewrite sv_app, H, IHl. reflexivity.
    - rewrite terms_mul. simpl. induction IH as [|x r H _ IHl]; simpl; [unfold sv, pv; simpl; ring|].
      rewrite sv_cross, H, IHl. reflexivity.
    - simpl. destruct (nat_exponent x) as [n|] eqn:E; [|unfold sv, pv; simpl; ring].
      rewrite sv_power, IHb. destruct x as [[qn qd]| | | | | | | | |]; try discriminate.
      unfold nat_exponent in E. cbn [Qnum Qden] in E. destruct qn as [|p|p]; try discriminate.
      destruct (Pos.eqb qd 1) eqn:D; [|discriminate]. apply Pos.eqb_eq in D. subst qd.
      injection E as <-. simpl value. rewrite <- (l_npow I L). reflexivity.
  Qed.

  Lemma value_distribute e : value I (distribute e) = value I e.
  Proof.
    unfold distribute. rewrite value_add_of, map_map, <- sv_terms. unfold sv. f_equal.
    apply map_ext. intros m. apply value_mul_of.
  Qed.
End Distribute.

Lemma nonrandom_add_inv l x : israndom (SAdd l) = Ok false -> In x l -> israndom x = Ok false.
Proof.
  intros H Hx. destruct (has omega (SAdd l)) eqn:N.
  - cbn [israndom] in H. rewrite N in H. cbn [negb] in H. apply anyM_false in H.
    rewrite Forall_forall in H. auto.
  - apply has_israndom. eapply has_child; eauto. constructor; auto.
Qed.
Lemma nonrandom_mul_inv l x : israndom (SMul l) = Ok false -> In x l -> israndom x = Ok false.
Proof.
  intros H Hx. destruct (has omega (SMul l)) eqn:N.
  - cbn [israndom] in H. rewrite N in H. cbn [negb] in H. apply anyM_false in H.
    rewrite Forall_forall in H. auto.
  - apply has_israndom. eapply has_child; eauto. constructor; auto.
Qed.
Lemma nonrandom_pow_inv b x : israndom (SPow b x) = Ok false -> israndom b = Ok false.
Proof.
  intros H. destruct (has omega (SPow b x)) eqn:N.
  - cbn [israndom] in H. rewrite N in H. cbn [negb] in H. apply anyM_false in H.
    inversion H; auto.
  - apply has_israndom. eapply has_child; eauto. constructor; auto.
Qed.

Lemma distribute_expansion : expansion distribute.
Proof.
  constructor.
  - intros A I L e. apply value_distribute; auto.
  - apply (distribute_prop (fun x => israndom x = Ok false)); intros.
    + eapply nonrandom_add_inv; eauto.
    + eapply nonrandom_mul_inv; eauto.
    + eapply nonrandom_pow_inv; eauto.
    + reflexivity.
    + apply israndom_mul. apply Forall_forall; auto.
    + apply israndom_add. apply Forall_forall; auto.
  - apply (distribute_prop (ex_free)); intros.
    + eapply exfree_child; eauto. constructor; auto.
    + eapply exfree_child; eauto. constructor; auto.
    + eapply exfree_child; eauto. constructor; auto.
    + apply exfree_num.
    + apply exfree_mul; auto.
    + apply exfree_add; auto.
  - apply (distribute_prop (bounds_ok)); intros.
    + eapply bounds_child; eauto. constructor; auto.
    + eapply bounds_child; eauto. constructor; auto.
    + eapply bounds_child; eauto. constructor; auto.
    + apply bounds_num.
    + apply bounds_mul; auto.
    + apply bounds_add; auto.
  - apply (distribute_prop (no_mixed)); intros.
    + eapply mixed_child; eauto. constructor; auto.
    + eapply mixed_child; eauto. constructor; auto.
    + eapply mixed_child; eauto. constructor; auto.
    + apply mixed_num.
    + apply mixed_mul; auto.
    + apply mixed_add; auto.
Qed.

(** ** equations *)
Lemma expectation_eq_sound expand eq_truth (X : expansion expand) {A : RAlg} (I : interp A) (L : lawful I) n l r l' r' :
  bounds_ok l -> bounds_ok r ->
  alone_single expand n (expand l) -> alone_single expand n (expand r) ->
  expectation_obj expand eq_truth n (OEq l r) = Ok (OEq l' r') ->
  (value I l' = EE (value I l) /\ value I r' = EE (value I r)).
Proof.
  intros Bl Br Al Ar. unfold expectation_obj, mk_eq.
  destruct (eq_truth (expand l) (expand r)); [discriminate|]. cbn [bind fst snd].
  pose proof (x_bounds _ X _ Bl) as Bl'. pose proof (x_bounds _ X _ Br) as Br'.
  rewrite <- (x_value _ X A I L l), <- (x_value _ X A I L r).
  unfold israndom_obj.
  assert (D : israndom (expand l) = Ok false -> israndom (expand r) = Ok false ->
              value I (expand l) = EE (value I (expand l)) /\ value I (expand r) = EE (value I (expand r))).
  { intros H1 H2. split; symmetry; apply (israndom_det L); auto. }
  assert (G : (l'0 <- expectation expand n (expand l) ;; r'0 <- expectation expand n (expand r) ;;
               match eq_truth l'0 r'0 with Some _ => Err TypeError | None => Ok (OEq l'0 r'0) end) = Ok (OEq l' r') ->
              value I l' = EE (value I (expand l)) /\ value I r' = EE (value I (expand r))).
  { destruct (expectation expand n (expand l)) as [a|] eqn:E1; [|discriminate]. cbn [bind].
    destruct (expectation expand n (expand r)) as [b|] eqn:E2; [|discriminate]. cbn [bind].
    destruct (eq_truth a b); [discriminate|]. injection 1 as -> ->.
    split; eapply expectation_sound; eauto. }
  destruct (has omega (expand l) || has omega (expand r)) eqn:N.
  - destruct (israndom (expand l)) as [bl|] eqn:E1; [|discriminate]. cbn [bind].
    destruct (israndom (expand r)) as [br|] eqn:E2; [|discriminate]. cbn [bind].
    destruct (bl || br) eqn:Ob; cbn [negb]; [exact G|].
    apply orb_false_iff in Ob as [-> ->]. injection 1 as <- <-. auto.
  - cbn [bind negb]. injection 1 as <- <-. apply orb_false_iff in N as [N1 N2].
    apply D; apply has_israndom; auto.
Qed.
