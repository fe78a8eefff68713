(** Expectation returns for every expression of known classes; a concrete interpretation;
    counterexamples. *)
From Coq Require Import List Arith Bool String QArith Qcanon Lia Ring FunctionalExtensionality.
From Verif Require Import PyBase PyBaseFacts SymModel RandomModel Reynolds ReynoldsInst RandomSpec
  RandomProofs RandomMore.
Import ListNotations.
Close Scope Q_scope. Close Scope Qc_scope.
Open Scope nat_scope.
Open Scope string_scope.
Open Scope list_scope.
Open Scope py_scope.

Lemma known_sub x e : In x (subterms e) -> known e -> known x.
Proof.
  intros H (K1 & K2 & K3). apply subterms_trans in H. split; [|split].
  - intros h l Hi. apply (K1 h l). apply H; auto.
  - intros a v Hi. apply (K2 a v). apply H; auto.
  - intros a v Hi. apply (K3 a v). apply H; auto.
Qed.
Lemma known_child x e : child x e -> known e -> known x.
Proof. intros H. apply known_sub. eapply child_subterms; eauto. apply subterms_self. Qed.

Lemma anyM_ok {A} (f : A -> res bool) l : (forall x, In x l -> exists b, f x = Ok b) -> exists b, anyM f l = Ok b.
Proof.
  induction l as [|x r IH]; simpl; intros H; [eauto|].
  destruct (H x (or_introl eq_refl)) as [b ->]. simpl. destruct b; [eauto|]. apply IH. auto.
Qed.

Lemma israndom_ok e : known e -> exists b, israndom e = Ok b.
Proof.
  induction e using sx_ind'; intros K; cbn [israndom];
    try (match goal with |- context [has omega ?x] => destruct (has omega x) eqn:N end; cbn [negb]; eauto).
  - apply has_true in N. destruct N as [N|[]]. discriminate.
  - apply anyM_ok. intros x Hx. rewrite Forall_forall in H. apply H; auto.
    eapply known_child; eauto. constructor; auto.
  - eauto.
  - apply IHe. eapply known_child; eauto. constructor.
  - apply IHe. eapply known_child; eauto. constructor.
  - apply anyM_ok. intros x Hx. rewrite Forall_forall in H. apply H; auto.
    eapply known_child; eauto. constructor; auto.
  - apply anyM_ok. intros x Hx. rewrite Forall_forall in H. apply H; auto.
    eapply known_child; eauto. constructor; auto.
  - apply anyM_ok. intros x [<-|[<-|[]]]; [apply IHe1|apply IHe2]; eapply known_child; eauto; constructor.
  - destruct K as [K _]. exfalso. eapply K. apply subterms_self.
Qed.

(** factors of a term are not sums, products or natural powers *)
Definition factor (x : sx) : Prop :=
  match x with
  | SAdd _ | SMul _ => False
  | SPow _ y => nat_exponent y = None
  | _ => True
  end.
Lemma factor_terms x : factor x -> terms x = [[x]].
Proof. destruct x; simpl; try reflexivity; try contradiction. intros ->. reflexivity. Qed.
Lemma terms_are_factors e m : In m (terms e) -> Forall factor m.
Proof.
  revert m. induction e as [| | | | | |l IH|l IH|b x IHb _|] using sx_ind'; intros m;
    try (intros [<-|[]]; repeat constructor; reflexivity).
  - simpl. rewrite in_flat_map. intros (x & Hx & Hm). rewrite Forall_forall in IH. eapply IH; eauto.
  - rewrite terms_mul. revert m. induction IH as [|x r H1 _ IHl]; simpl; intros m.
    + intros [<-|[]]. constructor.
    + rewrite in_cross. intros (u & v & Hu & Hv & ->). apply Forall_app; auto.
  - simpl. destruct (nat_exponent x) as [n|] eqn:E.
    + clear E. revert m. induction n as [|n IHn]; simpl; intros m.
      * intros [<-|[]]. constructor.
      * rewrite in_cross. intros (u & v & Hu & Hv & ->). apply Forall_app; auto.
    + intros [<-|[]]. repeat constructor. exact E.
Qed.
Lemma terms_sub e m x : In m (terms e) -> In x m -> In x (subterms e).
Proof.
  intros Hm Hx.
  assert (F : Forall (fun y => incl (subterms y) (subterms e)) m).
  { apply (terms_factors (fun y => incl (subterms y) (subterms e))) with (e := e); auto.
    - intros l y H Hy z Hz. apply H. eapply child_subterms; [|exact Hz]. constructor; auto.
    - intros l y H Hy z Hz. apply H. eapply child_subterms; [|exact Hz]. constructor; auto.
    - intros b y H z Hz. apply H. eapply child_subterms; [|exact Hz]. constructor; auto.
    - intros z Hz; exact Hz. }
  rewrite Forall_forall in F. apply (F x Hx). apply subterms_self.
Qed.

Lemma terms_list_factors m : Forall factor m -> terms_list m = [m].
Proof.
  induction 1 as [|x r H _ IH]; simpl; auto. rewrite (factor_terms _ H), IH. reflexivity.
Qed.
Lemma distribute_monomial m : Forall factor m -> distribute (mul_of m) = mul_of m.
Proof.
  intros F. unfold distribute. destruct m as [|x [|y r]].
  - reflexivity.
  - inversion F as [|? ? Fx _]; subst. cbn [mul_of]. rewrite (factor_terms _ Fx). reflexivity.
  - change (mul_of (x :: y :: r)) with (SMul (x :: y :: r)). rewrite terms_mul, terms_list_factors by auto.
    reflexivity.
Qed.

Definition T (e : sx) : Prop :=
  known e -> exists N, forall n, N <= n -> exists r, expectation distribute n e = Ok r.

Lemma strong (Q : sx -> Prop) :
  (forall e, (forall y, child y e -> forall x, In x (subterms y) -> Q x) -> Q e) -> forall e, Q e.
Proof.
  intros H. assert (G : forall e x, In x (subterms e) -> Q x); [|intros e; exact (G e e (subterms_self e))].
  induction e as [e IH] using by_child. intros x Hx.
  destruct (subterms_inv _ _ Hx) as [->|[(k & s & ->)|(y & Hc & Hy)]].
  - apply H. auto.
  - apply H. intros y Hy. inversion Hy.
  - eapply IH; eauto.
Qed.

Lemma split_ok l : (forall x, In x l -> known x) -> exists p, split_factors l = Ok p.
Proof.
  induction l as [|x r IH]; simpl; intros H; [eauto|].
  destruct (israndom_ok x) as [b ->]; [apply H; auto|]. simpl.
  destruct IH as [p ->]; [auto|]. simpl. eauto.
Qed.

Lemma split_random l p : split_factors l = Ok p -> split_factors (snd p) = Ok ([], snd p).
Proof.
  revert p. induction l as [|x r IH]; simpl; intros p.
  - injection 1 as <-. reflexivity.
  - destruct (israndom x) as [b|] eqn:E; simpl; [|discriminate].
    destruct (split_factors r) as [q|] eqn:F; simpl; [|discriminate].
    injection 1 as <-. pose proof (IH q eq_refl) as G. destruct b; simpl; auto.
    rewrite E. simpl. rewrite G. reflexivity.
Qed.

Lemma max_N {X} (P : nat -> X -> Prop) (l : list X) :
  (forall x, In x l -> exists N, forall n, N <= n -> P n x) ->
  exists N, forall n, N <= n -> forall x, In x l -> P n x.
Proof.
  induction l as [|x r IH]; intros H.
  - exists 0. intros n _ x [].
  - destruct IH as [N1 H1]; [intros; apply H; simpl; auto|].
    destruct (H x (or_introl eq_refl)) as [N2 H2].
    exists (Nat.max N1 N2). intros n Hn y [<-|Hy]; [apply H2; lia|apply H1; auto; lia].
Qed.

Lemma mapM_ok {X Y} (f : X -> res Y) l : (forall x, In x l -> exists r, f x = Ok r) -> exists r, mapM f l = Ok r.
Proof.
  induction l as [|x r IH]; simpl; intros H; [eauto|].
  destruct (H x (or_introl eq_refl)) as [y ->]. simpl.
  destruct IH as [ys ->]; [auto|]. simpl. eauto.
Qed.

Lemma expectation_step n e :
  expectation distribute (S n) e =
  (r <- israndom (distribute e) ;;
   if negb r then Ok (distribute e)
   else match distribute e with
        | SAdd l => l' <- mapM (expectation distribute n) l ;; Ok (SAdd l')
        | SMul l =>
            p <- split_factors l ;;
            if is_one (mul_of (fst p)) then Ok (SEx (distribute e))
            else m <- expectation distribute n (mul_of (snd p)) ;; Ok (SMul [mul_of (fst p); m])
        | SDer b v => match v with
                      | [] => Err IndexError
                      | x :: _ => m <- expectation distribute n b ;; Ok (SDer m [x])
                      end
        | SInt b ls => match ls with
                       | [] => Err IndexError
                       | x :: _ => m <- expectation distribute n b ;; Ok (SInt m [x])
                       end
        | _ => Ok (SEx (distribute e))
        end).
Proof. reflexivity. Qed.

Lemma expectation_total_all e : T e.
Proof.
  apply strong. clear e. intros e IH K.
  (* the argument of a derivative or integral inside e *)
  assert (Sub : forall f a, In f (subterms e) -> (exists v, f = SDer a v) \/ (exists w, f = SInt a w) ->
                  exists N, forall n, N <= n -> exists r, expectation distribute n a = Ok r).
  { intros f a Hf Hs.
    assert (Ca : child a f) by (destruct Hs as [[v ->]|[w ->]]; constructor).
    assert (Ia : In a (subterms f)) by (eapply child_subterms; [exact Ca|apply subterms_self]).
    assert (Ka : known a) by (eapply known_sub; [|exact K]; eapply subterms_trans; eauto).
    destruct (subterms_inv _ _ Hf) as [->|[(k & s & ->)|(y & Hc & Hy)]].
    - apply (IH a Ca a (subterms_self a)). auto.
    - destruct Hs as [[w E]|[w E]]; discriminate.
    - apply (IH y Hc a); auto. eapply subterms_trans; eauto. }
  (* one factor *)
  assert (One : forall x, factor x -> In x (subterms e) ->
                exists N, forall n, N <= n -> exists r, expectation distribute n x = Ok r).
  { intros x Fx Hx. pose proof (distribute_monomial [x] (Forall_cons x Fx (Forall_nil _))) as D.
    cbn [mul_of] in D. pose proof (known_sub _ _ Hx K) as Kx.
    destruct (israndom_ok x Kx) as [b Rb].
    destruct x as [q|k s|f l|a|a v|a v|l|l|c d|h l];
      try (exists 1; intros [|n] Hn; [lia|]; rewrite expectation_step, D, Rb; cbn [bind];
           destruct b; cbn [negb]; eauto; fail).
    - destruct (Sub _ a Hx (or_introl (ex_intro _ v eq_refl))) as [N HN].
      exists (S N). intros [|n] Hn; [lia|]. rewrite expectation_step, D, Rb. cbn [bind].
      destruct b; cbn [negb]; eauto. destruct v as [|y v].
      + destruct Kx as (_ & K2 & _). destruct (K2 a []); auto. apply subterms_self.
      + destruct (HN n) as [r ->]; [lia|]. cbn [bind]. eauto.
    - destruct (Sub _ a Hx (or_intror (ex_intro _ v eq_refl))) as [N HN].
      exists (S N). intros [|n] Hn; [lia|]. rewrite expectation_step, D, Rb. cbn [bind].
      destruct b; cbn [negb]; eauto. destruct v as [|y v].
      + destruct Kx as (_ & _ & K3). destruct (K3 a []); auto. apply subterms_self.
      + destruct (HN n) as [r ->]; [lia|]. cbn [bind]. eauto.
    - destruct Fx.
    - destruct Fx. }
  (* one term *)
  assert (Mono : forall m, Forall factor m -> (forall x, In x m -> In x (subterms e)) ->
                 exists N, forall n, N <= n -> exists r, expectation distribute n (mul_of m) = Ok r).
  { intros m Fm Hm. pose proof (distribute_monomial m Fm) as D.
    assert (Km : forall x, In x m -> known x) by (intros; eapply known_sub; eauto).
    destruct m as [|x [|y r]].
    - exists 1. intros [|n] Hn; [lia|]. rewrite expectation_step, D. cbn. eauto.
    - inversion Fm; subst. apply One; auto. apply Hm; simpl; auto.
    - change (mul_of (x :: y :: r)) with (SMul (x :: y :: r)) in *.
      destruct (split_ok (x :: y :: r) Km) as [p Hp].
      assert (Rok : exists b, israndom (SMul (x :: y :: r)) = Ok b).
      { cbn [israndom]. destruct (has omega (SMul (x :: y :: r))); cbn [negb]; eauto. apply anyM_ok.
        intros z Hz. apply israndom_ok. auto. }
      destruct Rok as [b Rb].
      assert (Snd : exists N, forall n, N <= n -> exists q, expectation distribute n (mul_of (snd p)) = Ok q).
      { assert (Fs : Forall factor (snd p)).
        { apply Forall_forall. intros z Hz. rewrite Forall_forall in Fm. apply Fm. eapply split_snd; eauto. }
        assert (Hs : forall z, In z (snd p) -> In z (subterms e)).
        { intros z Hz. apply Hm. eapply split_snd; eauto. }
        pose proof (split_random _ _ Hp) as Hr. pose proof (distribute_monomial _ Fs) as Ds.
        destruct (snd p) as [|z [|z' s]].
        - exists 1. intros [|n] Hn; [lia|]. rewrite expectation_step, Ds. cbn. eauto.
        - inversion Fs; subst. apply One; auto. apply Hs; simpl; auto.
        - change (mul_of (z :: z' :: s)) with (SMul (z :: z' :: s)) in *.
          assert (Rs : exists b, israndom (SMul (z :: z' :: s)) = Ok b).
          { cbn [israndom]. destruct (has omega (SMul (z :: z' :: s))); cbn [negb]; eauto. apply anyM_ok.
            intros w Hw. apply israndom_ok. eapply known_sub; eauto. }
          destruct Rs as [b' Rb'].
          exists 1. intros [|n] Hn; [lia|]. rewrite expectation_step, Ds, Rb'. cbn [bind].
          destruct b'; cbn [negb]; eauto. rewrite Hr. cbn [bind fst]. cbn. eauto. }
      destruct Snd as [N HN]. exists (S N). intros [|n] Hn; [lia|].
      rewrite expectation_step, D, Rb. cbn [bind]. destruct b; cbn [negb]; eauto.
      rewrite Hp. cbn [bind]. destruct (is_one _); eauto. destruct (HN n) as [q ->]; [lia|]. cbn [bind]. eauto. }
  assert (All : forall m, In m (terms e) ->
                exists N, forall n, N <= n -> exists r, expectation distribute n (mul_of m) = Ok r).
  { intros m Hm. apply Mono; [eapply terms_are_factors; eauto|]. intros x Hx. eapply terms_sub; eauto. }
  destruct (terms e) as [|m [|m' ms]] eqn:Et.
  - exists 1. intros [|n] Hn; [lia|]. rewrite expectation_step. unfold distribute. rewrite Et. cbn. eauto.
  - assert (De : distribute e = mul_of m) by (unfold distribute; rewrite Et; reflexivity).
    assert (Dm : distribute (mul_of m) = mul_of m).
    { apply distribute_monomial. eapply terms_are_factors with (e := e). rewrite Et. simpl; auto. }
    destruct (All m (or_introl eq_refl)) as [N HN]. exists (S N). intros [|n] Hn; [lia|].
    destruct (HN (S n)) as [r Hr]; [lia|]. exists r.
    rewrite expectation_step in Hr |- *. rewrite De. rewrite Dm in Hr. exact Hr.
  - assert (De : distribute e = SAdd (map mul_of (m :: m' :: ms))) by (unfold distribute; rewrite Et; reflexivity).
    destruct (max_N (fun n m => exists r, expectation distribute n (mul_of m) = Ok r) _ All) as [N HN].
    exists (S N). intros [|n] Hn; [lia|].
    rewrite expectation_step, De.
    assert (Rok : exists b, israndom (SAdd (map mul_of (m :: m' :: ms))) = Ok b).
    { cbn [israndom]. destruct (has omega _); cbn [negb]; eauto. apply anyM_ok.
      intros x Hx. apply in_map_iff in Hx as (u & <- & Hu). apply israndom_ok.
      assert (Ku : forall y, In y u -> known y).
      { intros y Hy. eapply known_sub; [|exact K]. eapply terms_sub; [|exact Hy]. rewrite Et. exact Hu. }
      apply mul_of_child; auto.
      - repeat split; simpl; intros; intuition discriminate.
      - intros l Hl. split; [|split].
        + intros h l0 [E|H]; [discriminate|]. apply in_flat_map in H as (y & Hy & H). destruct (Hl y Hy) as [Q _]. eapply Q; eauto.
        + intros a v [E|H]; [discriminate|]. apply in_flat_map in H as (y & Hy & H). destruct (Hl y Hy) as (_ & Q & _). eapply Q; eauto.
        + intros a v [E|H]; [discriminate|]. apply in_flat_map in H as (y & Hy & H). destruct (Hl y Hy) as (_ & _ & Q). eapply Q; eauto. }
    destruct Rok as [b ->]. cbn [bind]. destruct b; cbn [negb]; eauto.
    destruct (mapM_ok (expectation distribute n) (map mul_of (m :: m' :: ms))) as [r ->].
    + intros x Hx. apply in_map_iff in Hx as (u & <- & Hu). apply HN; [lia|auto].
    + cbn [bind]. eauto.
Qed.
