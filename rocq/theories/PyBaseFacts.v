(** Lemmas about the Python base layer. *)
From Coq Require Import List Arith Bool Lia.
From Verif Require Import PyBase.
Import ListNotations.

Section DictFacts.
  Context {K V : Type}.
  Variable eqd : forall a b : K, {a = b} + {a <> b}.
  Implicit Types d : dict K V.

  Lemma dget_dset_same k v d : dget eqd k (dset eqd k v d) = Some v.
  Proof.
    induction d as [|[k' v'] r IH]; simpl.
    - destruct (eqd k k); congruence.
    - destruct (eqd k k'); simpl; destruct (eqd k k'); congruence.
  Qed.

  Lemma dget_dset_other k k' v d : k <> k' -> dget eqd k' (dset eqd k v d) = dget eqd k' d.
  Proof.
    intros Hn. induction d as [|[a b] r IH]; simpl.
    - destruct (eqd k' k); congruence.
    - destruct (eqd k a); simpl; destruct (eqd k' a); congruence.
  Qed.

  Lemma dget_dset k k' v d :
    dget eqd k' (dset eqd k v d) = if eqd k' k then Some v else dget eqd k' d.
  Proof.
    destruct (eqd k' k) as [->|H]; [apply dget_dset_same|apply dget_dset_other; congruence].
  Qed.

  Lemma dget_None k d : dget eqd k d = None <-> ~ In k (dkeys d).
  Proof.
    induction d as [|[a b] r IH]; simpl; [tauto|].
    destruct (eqd k a); split; intros; try congruence; firstorder congruence.
  Qed.

  Lemma dget_Some_In k v d : dget eqd k d = Some v -> In (k, v) d.
  Proof.
    induction d as [|[a b] r IH]; simpl; [congruence|].
    destruct (eqd k a); intros; [left; congruence|right; auto].
  Qed.

  Lemma dget_Some_key k v d : dget eqd k d = Some v -> In k (dkeys d).
  Proof. intros H%dget_Some_In. apply (in_map fst) in H. exact H. Qed.

  Lemma In_dget k v d : NoDup (dkeys d) -> In (k, v) d -> dget eqd k d = Some v.
  Proof.
    induction d as [|[a b] r IH]; simpl; [tauto|].
    intros Hnd [H|H]; inversion Hnd; subst.
    - inversion H; subst. destruct (eqd k k); congruence.
    - destruct (eqd k a) as [->|]; auto.
      exfalso. apply H2. apply (in_map fst) in H. exact H.
  Qed.

  Lemma dkeys_dset k v d :
    dkeys (dset eqd k v d) = if in_dec eqd k (dkeys d) then dkeys d else dkeys d ++ [k].
  Proof.
    induction d as [|[a b] r IH]; [reflexivity|].
    cbn [dset]. destruct (eqd k a) as [->|Hn].
    - cbn [dkeys map fst]. destruct (in_dec eqd a (a :: map fst r)) as [_|Hi]; [reflexivity|].
      exfalso. apply Hi. left. reflexivity.
    - cbn [dkeys map fst]. unfold dkeys in IH. rewrite IH.
      destruct (in_dec eqd k (map fst r)) as [Hi|Hi];
        destruct (in_dec eqd k (a :: map fst r)) as [Hj|Hj]; try reflexivity.
      + exfalso. apply Hj. right. exact Hi.
      + exfalso. destruct Hj; congruence || auto.
  Qed.

  Lemma NoDup_dset k v d : NoDup (dkeys d) -> NoDup (dkeys (dset eqd k v d)).
  Proof.
    intros H. rewrite dkeys_dset. destruct (in_dec eqd k (dkeys d)); auto.
    apply NoDup_rev in H. rewrite <- (rev_involutive (_ ++ _)).
    apply NoDup_rev. rewrite rev_app_distr. simpl. constructor; auto.
    rewrite <- in_rev. auto.
  Qed.

  Lemma dset_same_keys k v d : In k (dkeys d) -> dkeys (dset eqd k v d) = dkeys d.
  Proof. intros H. rewrite dkeys_dset. destruct (in_dec eqd k (dkeys d)); tauto. Qed.

  Lemma dget_key_ex k d : In k (dkeys d) -> exists v, dget eqd k d = Some v.
  Proof.
    intros H. destruct (dget eqd k d) eqn:E; eauto.
    apply dget_None in E. tauto.
  Qed.
End DictFacts.

Lemma lmem_true {A} (eqd : forall a b : A, {a = b} + {a <> b}) x l :
  lmem eqd x l = true <-> In x l.
Proof. unfold lmem. destruct (in_dec eqd x l); split; auto; congruence. Qed.

Lemma lmem_false {A} (eqd : forall a b : A, {a = b} + {a <> b}) x l :
  lmem eqd x l = false <-> ~ In x l.
Proof. unfold lmem. destruct (in_dec eqd x l); split; auto; congruence. Qed.

Lemma mapM_Ok {A B} (f : A -> res B) g l :
  (forall x, In x l -> f x = Ok (g x)) -> mapM f l = Ok (map g l).
Proof.
  induction l as [|x r IH]; simpl; intros H; auto.
  rewrite (H x) by auto. simpl. rewrite IH by auto. reflexivity.
Qed.

Lemma mapM_Ok_Forall2 {A B} (f : A -> res B) l ys :
  mapM f l = Ok ys <-> Forall2 (fun x y => f x = Ok y) l ys.
Proof.
  revert ys. induction l as [|x r IH]; simpl; intros ys.
  - split; intros H; inversion H; subst; constructor.
  - split.
    + destruct (f x) eqn:E; simpl; try discriminate.
      destruct (mapM f r) eqn:E2; simpl; try discriminate.
      intros H; inversion H; subst. constructor; auto. apply IH. reflexivity.
    + intros H; inversion H; subst. rewrite H2. simpl.
      apply IH in H4. rewrite H4. reflexivity.
Qed.

Lemma mapM_length {A B} (f : A -> res B) l ys : mapM f l = Ok ys -> length ys = length l.
Proof. intros H%mapM_Ok_Forall2. induction H; simpl; congruence. Qed.

Lemma mapM_Err {A B} (f : A -> res B) l e :
  mapM f l = Err e <->
  exists l1 x l2, l = l1 ++ x :: l2 /\ f x = Err e /\ (forall y, In y l1 -> exists b, f y = Ok b).
Proof.
  induction l as [|x r IH]; simpl.
  - split; [discriminate|]. intros (l1 & x & l2 & H & _). destruct l1; discriminate.
  - destruct (f x) eqn:E; simpl.
    + split.
      * destruct (mapM f r) eqn:E2; simpl; try discriminate.
        intros H; inversion H; subst. destruct IH as [IH _].
        destruct (IH eq_refl) as (l1 & y & l2 & -> & Hy & Hl).
        exists (x :: l1), y, l2. simpl. repeat split; auto.
        intros z [<-|Hz]; eauto.
      * intros (l1 & y & l2 & H & Hy & Hl). destruct l1 as [|z l1]; simpl in H; inversion H; subst.
        -- congruence.
        -- destruct IH as [_ IH]. rewrite IH; auto. exists l1, y, l2. repeat split; auto.
           intros w Hw. apply Hl. right. exact Hw.
    + split.
      * intros H; inversion H; subst. exists [], x, r. simpl. repeat split; auto. tauto.
      * intros (l1 & y & l2 & H & Hy & Hl). destruct l1 as [|z l1]; simpl in H; inversion H; subst.
        -- congruence.
        -- destruct (Hl z) as [b Hb]; [left; reflexivity|congruence].
Qed.

Lemma mapM_app {A B} (f : A -> res B) l1 l2 :
  mapM f (l1 ++ l2) = (a <- mapM f l1 ;; b <- mapM f l2 ;; Ok (a ++ b)).
Proof.
  induction l1 as [|x r IH]; simpl.
  - destruct (mapM f l2); reflexivity.
  - destruct (f x); simpl; auto. rewrite IH.
    destruct (mapM f r); simpl; auto. destruct (mapM f l2); reflexivity.
Qed.

Lemma mapM_ext {A B} (f g : A -> res B) l :
  (forall x, In x l -> f x = g x) -> mapM f l = mapM g l.
Proof.
  induction l as [|x r IH]; simpl; intros H; auto.
  rewrite H by auto. destruct (g x); simpl; auto. rewrite IH; auto.
Qed.

Lemma foldM_app {A B} (f : B -> A -> res B) b l1 l2 :
  foldM f b (l1 ++ l2) = (b' <- foldM f b l1 ;; foldM f b' l2).
Proof.
  revert b. induction l1 as [|x r IH]; simpl; intros b; auto.
  destruct (f b x); simpl; auto.
Qed.

Lemma last_opt_app {A} (l : list A) x : last_opt (l ++ [x]) = Some x.
Proof.
  induction l as [|y r IH]; auto.
  simpl. destruct (r ++ [x]) eqn:E; auto. destruct r; discriminate.
Qed.

Lemma last_opt_None {A} (l : list A) : last_opt l = None <-> l = [].
Proof.
  induction l as [|x r IH]; simpl; split; intros H; auto; try discriminate.
  destruct r; try discriminate. apply IH in H. discriminate.
Qed.

Lemma last_opt_nth {A} (l : list A) x : last_opt l = Some x -> nth_error l (length l - 1) = Some x.
Proof.
  induction l as [|y r IH]; simpl; try discriminate.
  destruct r as [|z r]; simpl in *; auto.
  intros H. apply IH in H. rewrite Nat.sub_0_r in H. exact H.
Qed.

Lemma removelast_map {A B} (f : A -> B) (l : list A) : removelast (map f l) = map f (removelast l).
Proof.
  induction l as [|x r IH]; auto. simpl map. destruct r as [|y r]; auto.
  change (removelast (f x :: map f (y :: r)) = f x :: map f (removelast (y :: r))).
  rewrite <- IH. reflexivity.
Qed.

Lemma set_nth_length {A} i (v : A) l : length (set_nth i v l) = length l.
Proof. revert i. induction l as [|x r IH]; intros [|i]; simpl; auto. Qed.

Lemma nth_error_set_nth {A} i j (v : A) l :
  nth_error (set_nth i v l) j =
  if Nat.eqb i j then (if Nat.ltb i (length l) then Some v else None) else nth_error l j.
Proof.
  revert i j. induction l as [|x r IH]; intros [|i] [|j]; simpl; auto.
  - destruct (Nat.eqb i j); auto.
  - rewrite IH. reflexivity.
Qed.

Lemma Forall2_nth {A B} (R : A -> B -> Prop) l1 l2 :
  Forall2 R l1 l2 -> forall k a, nth_error l1 k = Some a ->
  exists b, nth_error l2 k = Some b /\ R a b.
Proof.
  induction 1 as [|x y l1 l2 Hxy HF IH]; intros [|k] a H; simpl in *; try discriminate.
  - inversion H; subst. eauto.
  - eauto.
Qed.
