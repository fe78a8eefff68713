(** Proofs about UtilModel. *)
From Coq Require Import List Arith Bool String Ascii QArith Qcanon Permutation Lia Sorted.
From Verif Require Import PyBase PyBaseFacts SymModel RandomModel Reynolds RandomSpec RandomProofs PDEModel PDESpec PDEProofs UtilModel UtilSpec.
Import ListNotations.
Close Scope Q_scope. Close Scope Qc_scope.
Open Scope nat_scope.
Open Scope string_scope.
Open Scope list_scope.

(** ** upper triangle *)
(** entries (i,j) with i <= j, row by row *)
Fixpoint pairs_up (n i : nat) : list (nat * nat) :=
  match n with O => [] | S k => map (pair i) (seq i (S k)) ++ pairs_up k (S i) end.

Lemma upper_triangle_pairs_gen {A} (M : nat -> nat -> A) n i m : i + n = m ->
  flat_map (fun i => map (fun j => M i j) (seq i (m - i))) (seq i n) = map (fun p => M (fst p) (snd p)) (pairs_up n i).
Proof.
  revert i. induction n as [|n IH]; intros i E; simpl; auto.
  rewrite IH by lia. replace (m - i) with (S n) by lia. simpl.
  rewrite map_app, !map_map. reflexivity.
Qed.
Lemma upper_triangle_pairs {A} (M : nat -> nat -> A) n :
  upper_triangle n n M = map (fun p => M (fst p) (snd p)) (pairs_up n 0).
Proof. apply upper_triangle_pairs_gen. reflexivity. Qed.
Lemma in_pairs_up n : forall i p, In p (pairs_up n i) <-> i <= fst p <= snd p /\ snd p < i + n.
Proof.
  induction n as [|n IH]; intros i [a b]; cbn [pairs_up fst snd].
  - simpl. lia.
  - rewrite in_app_iff, IH, in_map_iff. cbn [fst snd]. split.
    + intros [(j & E & Hj)|H]; [|lia]. injection E as <- <-. apply in_seq in Hj. lia.
    + intros H. destruct (Nat.eq_dec a i) as [->|N]; [left|right; lia].
      exists b. split; auto. apply in_seq. lia.
Qed.
Lemma pairs_up_length n i : 2 * List.length (pairs_up n i) = n * S n.
Proof.
  revert i. induction n as [|n IH]; intros i; auto. cbn [pairs_up].
  rewrite app_length, map_length, seq_length. specialize (IH (S i)). nia.
Qed.
Lemma NoDup_app2 {A} (a b : list A) : NoDup a -> NoDup b -> (forall x, In x a -> ~ In x b) -> NoDup (a ++ b).
Proof.
  induction a as [|x a IH]; simpl; auto. intros Ha Hb D. inversion Ha; subst. constructor.
  - rewrite in_app_iff. intros [H|H]; auto. apply (D x); auto.
  - apply IH; auto.
Qed.
Lemma pairs_up_nodup n : forall i, NoDup (pairs_up n i).
Proof.
  induction n as [|n IH]; intros i; cbn [pairs_up]; [constructor|].
  apply NoDup_app2; auto.
  - apply FinFun.Injective_map_NoDup; [intros x y H; injection H; auto|apply seq_NoDup].
  - intros [a b] H1 H2. apply in_map_iff in H1 as (j & E & _). injection E as <- <-.
    apply in_pairs_up in H2. simpl in H2. lia.
Qed.
Lemma pairs_up_sorted n : forall i, StronglySorted lex (pairs_up n i).
Proof.
  induction n as [|n IH]; intros i; cbn [pairs_up]; [constructor|].
  assert (G : forall k j, StronglySorted lex (map (pair i) (seq j k) ++ pairs_up n (S i))).
  { induction k as [|k IHk]; intros j; simpl; [apply IH|]. constructor; [apply IHk|].
    apply Forall_forall. intros [a b] H. apply in_app_or in H as [H|H].
    - apply in_map_iff in H as (c & E & Hc). injection E as <- <-. apply in_seq in Hc. right. simpl. lia.
    - apply in_pairs_up in H. simpl in H. left. simpl. lia. }
  apply G.
Qed.
Lemma map_eq_in {A B} (f g : A -> B) l : map f l = map g l -> forall x, In x l -> f x = g x.
Proof. induction l as [|y l IH]; simpl; intros E x H; [contradiction|]. injection E as E1 E2. destruct H as [<-|H]; auto. Qed.
Lemma combine_map {A B C} (f : A -> B) (g : A -> C) l : combine (map f l) (map g l) = map (fun x => (f x, g x)) l.
Proof. induction l; simpl; congruence. Qed.

(** ** Eq *)
Section Sat.
  Context {A : RAlg} (I : interp A).
  Add Ring A_ring : (c_th A).
  Open Scope ra_scope.

  Variables (ar : arith) (eq_truth : sx -> sx -> option bool).
  Hypothesis S : sound_arith I ar.
  Hypothesis T : sound_truth I eq_truth.

  Lemma sat_Eq l r : sat I (Eq eq_truth l r) <-> value I l = value I r.
  Proof. unfold Eq. destruct (eq_truth l r) eqn:E; simpl; [apply T; auto|tauto]. Qed.

  Lemma sat_mul q a : value I (fst q) = value I (snd q) -> sat I (eq_mul ar eq_truth q a).
  Proof. intros H. apply sat_Eq. rewrite !(proj1 (proj2 (S _ _))). rewrite H. reflexivity. Qed.
  Lemma sat_mul_inv q a b : b * value I a = 1 -> sat I (eq_mul ar eq_truth q a) -> value I (fst q) = value I (snd q).
  Proof.
    intros U H. apply sat_Eq in H. rewrite !(proj1 (proj2 (S _ _))) in H.
    transitivity (b * value I a * value I (fst q)); [rewrite U; ring|].
    transitivity (b * (value I a * value I (fst q))); [ring|]. rewrite H.
    transitivity (b * value I a * value I (snd q)); [ring|rewrite U; ring].
  Qed.
  Lemma sat_add q l r o : eq_add ar eq_truth q (ERel l r) = Ok o ->
    (value I l = value I r -> (sat I o <-> value I (fst q) = value I (snd q))).
  Proof.
    intros H E. injection H as <-. rewrite sat_Eq. cbn [fst snd]. rewrite !(proj1 (S _ _)), E. split; [|congruence].
    intros H. transitivity ((value I (fst q) + value I r) - value I r); [ring|]. rewrite H. ring.
  Qed.
  Lemma sat_sub q l r o : eq_sub ar eq_truth q (ERel l r) = Ok o ->
    (value I l = value I r -> (sat I o <-> value I (fst q) = value I (snd q))).
  Proof.
    intros H E. injection H as <-. rewrite sat_Eq. cbn [fst snd].
    rewrite !(proj1 (proj2 (proj2 (S _ _)))), E. split; [|congruence].
    intros H. transitivity ((value I (fst q) - value I r) + value I r); [ring|]. rewrite H. ring.
  Qed.
  Lemma sat_neg q : sat I (eq_neg ar eq_truth q) <-> value I (fst q) = value I (snd q).
  Proof.
    unfold eq_neg. rewrite sat_Eq.
    pose proof (proj2 (proj2 (proj2 (S (fst q) (fst q))))) as H1.
    pose proof (proj2 (proj2 (proj2 (S (snd q) (snd q))))) as H2. rewrite H1, H2. split; [|congruence].
    intros H. transitivity (- - value I (fst q)); [ring|]. rewrite H. ring.
  Qed.
  Lemma sat_imul q l r o : eq_imul_eq ar eq_truth q (ERel l r) = Ok o ->
    value I (fst q) = value I (snd q) -> value I l = value I r -> sat I o.
  Proof.
    intros H E1 E2. injection H as <-. apply sat_Eq. rewrite !(proj1 (proj2 (S _ _))), E1, E2. reflexivity.
  Qed.

  Definition sides (o : eqo) (a b : A) : Prop :=
    match o with ERel l r => value I l = a /\ value I r = b | EBool _ => True end.
  Lemma sides_Eq l r a b : value I l = a -> value I r = b -> sides (Eq eq_truth l r) a b.
  Proof. intros E1 E2. unfold Eq. destruct (eq_truth l r); cbn; auto. Qed.
  Lemma op_sides q l r alpha :
    (forall o, eq_add ar eq_truth q (ERel l r) = Ok o -> sides o (value I (fst q) + value I l) (value I (snd q) + value I r)) /\
    (forall o, eq_sub ar eq_truth q (ERel l r) = Ok o -> sides o (value I (fst q) - value I l) (value I (snd q) - value I r)) /\
    (forall o, eq_imul_eq ar eq_truth q (ERel l r) = Ok o -> sides o (value I (fst q) * value I l) (value I (snd q) * value I r)) /\
    sides (eq_neg ar eq_truth q) (- value I (fst q)) (- value I (snd q)) /\
    sides (eq_mul ar eq_truth q alpha) (value I alpha * value I (fst q)) (value I alpha * value I (snd q)).
  Proof.
    repeat split; try (intros o H; injection H as <-); apply sides_Eq; cbn [fst snd];
      first [apply (proj1 (S _ _)) | apply (proj1 (proj2 (S _ _))) | apply (proj1 (proj2 (proj2 (S _ _))))
            | apply (proj2 (proj2 (proj2 (S (fst q) (fst q))))) | apply (proj2 (proj2 (proj2 (S (snd q) (snd q)))))].
  Qed.

  (** ** isolate *)
  Lemma vcons a (l : list sx) : fold_right cadd c0 (map (value I) (a :: l)) = value I a + fold_right cadd c0 (map (value I) l).
  Proof. reflexivity. Qed.

  Lemma affine_value x e : forall a b, affine x e = Some (a, b) ->
    value I e = value I a * value I x + value I b.
  Proof.
    induction e as [| | | | | |l IH|l IH| |] using sx_ind'; intros a b;
      (cbn [affine]; destruct (sx_eq_dec _ x) as [<-|N];
        [intros Hs; injection Hs as <- <-; cbn [value]; rewrite ?cq_1, ?cq_0; ring|]);
      (match goal with |- context [if free_of ?x ?e then _ else _] => destruct (free_of x e) end;
        [intros Hs; injection Hs as <- <-; change (value I (SNum 0)) with (cq (Q2Qc 0) : A);
         change (Q2Qc 0) with 0%Qc; rewrite cq_0; ring|]);
      try discriminate.
    - revert a b. clear N. cbn [value]. induction l as [|y r IHr]; intros a b H.
      + injection H as <- <-. cbn [value map fold_right]. change (Q2Qc 0) with 0%Qc. rewrite cq_0. ring.
      + inversion IH as [|? ? Hy Hr]; subst. specialize (IHr Hr).
        destruct (affine x y) as [[a1 b1]|]; [|discriminate].
        match type of H with match ?g with _ => _ end = _ => destruct g as [[a2 b2]|] eqn:G; [|discriminate] end.
        injection H as <- <-. specialize (Hy _ _ eq_refl). specialize (IHr _ _ eq_refl).
        cbn [map fold_right value]. rewrite Hy, IHr. ring.
    - revert a b. clear N. cbn [value]. induction l as [|y r IHr]; intros a b H; [discriminate|].
      inversion IH as [|? ? Hy Hr]; subst. specialize (IHr Hr).
      destruct (free_of x y).
      + match type of H with match ?g with _ => _ end = _ => destruct g as [[a2 b2]|] eqn:G; [|discriminate] end.
        injection H as <- <-. specialize (IHr _ _ eq_refl).
        cbn [map fold_right value]. rewrite IHr. ring.
      + destruct (forallb (free_of x) r); [|discriminate].
        destruct (affine x y) as [[a1 b1]|]; [|discriminate].
        injection H as <- <-. specialize (Hy _ _ eq_refl). cbn [map fold_right value]. rewrite Hy. ring.
  Qed.

  Lemma isolate_equiv q x o : isolate eq_truth q x = Some (Ok o) ->
    exists a b s, o = Eq eq_truth x s /\
      value I (fst q) - value I (snd q) = value I a * value I x + value I b /\
      (value I a * value I (SPow a (SNum (-1))) = 1 ->
       (sat I o <-> value I (fst q) = value I (snd q))).
  Proof.
    unfold isolate, solve. destruct (free_of x _); [discriminate|].
    destruct (affine x _) as [[a b]|] eqn:Af; [|discriminate]. intros H. injection H as <-.
    exists a, b, (SMul [SNum (-1); b; SPow a (SNum (-1))]). split; [reflexivity|].
    apply affine_value in Af. cbn [value map fold_right] in Af.
    assert (M1 : cq (Q2Qc (-1)) = - (1) :> A).
    { change (Q2Qc (-1)) with (- (1))%Qc. rewrite cq_opp, cq_1. reflexivity. }
    rewrite M1 in Af.
    assert (E : value I (fst q) - value I (snd q) = value I a * value I x + value I b) by (rewrite <- Af; ring).
    split; [exact E|]. intros U. rewrite sat_Eq. cbn [value map fold_right]. rewrite M1.
    change (i_pow I (value I a) (- (1))) with (i_pow I (value I a) (- (1))).
    cbn [value] in U. rewrite M1 in U. set (w := i_pow I (value I a) (- (1))) in *.
    split.
    - intros H. transitivity ((value I (fst q) - value I (snd q)) + value I (snd q)); [ring|]. rewrite E, H.
      transitivity (value I b * (1 - value I a * w) + value I (snd q)); [ring|]. rewrite U. ring.
    - intros H. assert (Z : value I a * value I x + value I b = 0) by (rewrite <- E, H; ring).
      transitivity (value I a * w * value I x); [rewrite U; ring|].
      transitivity (w * (value I a * value I x + value I b) - w * value I b); [ring|]. rewrite Z. ring.
  Qed.

  (** ** derivatives *)
  Lemma iter_dd_comm n c d a : Nat.iter n (dd c) (dd d a) = dd d (Nat.iter n (dd c) a) :> A.
  Proof. induction n as [|n IH]; [reflexivity|]. cbn [Nat.iter nat_rect]. unfold Nat.iter in IH. rewrite IH. apply dd_comm. Qed.
  Lemma ders_dd c v a : ders v (dd c a) = dd c (ders v a) :> A.
  Proof.
    induction v as [|[d n] v IH]; [reflexivity|]. cbn [ders]. rewrite IH. apply iter_dd_comm.
  Qed.
  Lemma ders_bump c v a : ders (bump c v) a = dd c (ders v a) :> A.
  Proof.
    induction v as [|[d n] v IH]; [reflexivity|]. cbn [bump].
    destruct (String.eqb d c) eqn:E.
    - apply String.eqb_eq in E. subst d. reflexivity.
    - destruct (String.compare c d); [|reflexivity|]; cbn [ders]; rewrite IH; apply iter_dd_comm.
  Qed.
  Lemma derivative_value e c : In (SSym Plain c) (subterms e) -> value I (derivative e c) = dd c (value I e).
  Proof.
    intros H. unfold derivative. apply smem_true in H. rewrite H. destruct e; try reflexivity.
    cbn [value]. apply ders_bump.
  Qed.
End Sat.

Lemma truth_value_raises eq_truth op q : match eq_truth (op (fst q)) (op (snd q)) with
  | Some _ => eq_map eq_truth op q = Err TypeError
  | None => eq_map eq_truth op q = Ok (ERel (op (fst q)) (op (snd q)))
  end.
Proof.
  unfold eq_map, Eq. destruct (eq_truth (op (fst q)) (op (snd q))) eqn:E; [reflexivity|]. rewrite E. reflexivity.
Qed.

(** ** gradient, divergence *)
Lemma check_compatible_ok coords e : check_compatible coords e = Ok tt <->
  forall f, a_function f -> In f (subterms e) -> forall c, In c coords -> In (SSym Plain c) (args f).
Proof.
  unfold check_compatible. destruct (forallb _ _) eqn:F.
  - split; auto. intros _ f Hf Hi c Hc. rewrite forallb_forall in F.
    assert (Fi : In f (atoms is_function e)) by (apply in_atoms; split; auto; apply is_function_iff; auto).
    specialize (F f Fi). unfold is_compatible in F. rewrite forallb_forall in F. specialize (F c Hc).
    apply smem_true in F. exact F.
  - split; [discriminate|]. intros H. exfalso. rewrite <- not_true_iff_false in F. apply F.
    apply forallb_forall. intros f Hf. apply in_atoms in Hf as [H1 H2]. apply is_function_iff in H1.
    unfold is_compatible. apply forallb_forall. intros c Hc. apply smem_true. eauto.
Qed.
Lemma check_compatible_err coords e : check_compatible coords e <> Ok tt -> check_compatible coords e = Err ValueError.
Proof. unfold check_compatible. destruct (forallb _ _); congruence. Qed.

Lemma arg_of_function f x : a_function f -> In x (args f) -> In x (subterms f).
Proof.
  intros [(g & l & ->)|(e & ->)] H; simpl in *.
  - right. apply in_flat_map. exists x. split; auto. destruct x; simpl; auto.
  - destruct H as [<-|[]]. right. destruct e; simpl; auto.
Qed.

Lemma subterms_derivative f e c : In f (subterms (derivative e c)) -> a_function f -> In f (subterms e).
Proof.
  unfold derivative. destruct (smem _ _).
  - assert (G : forall e w, In f (subterms (SDer e w)) -> a_function f -> In f (subterms e)).
    { intros e' w H Hf. destruct H as [<-|H]; [exfalso; destruct Hf as [(? & ? & Hf)|(? & Hf)]; discriminate|].
      apply in_app_or in H as [H|H]; auto. apply in_map_iff in H as (? & <- & _).
      destruct Hf as [(? & ? & Hf)|(? & Hf)]; discriminate. }
    intros H Hf. destruct e; try (eapply G; eassumption). right. apply in_or_app. left. eapply G; eassumption.
  - simpl. intros [<-|[]] [(? & ? & Hf)|(? & Hf)]; discriminate.
Qed.

Lemma gradient_ok coords e : check_compatible coords e = Ok tt -> gradient coords e = Ok (map (derivative e) coords).
Proof. intros H. unfold gradient. rewrite H. reflexivity. Qed.

Lemma div_gradient coords e g : gradient coords e = Ok g ->
  div coords g = Ok (SAdd (map (fun c => derivative (derivative e c) c) coords)).
Proof.
  unfold gradient. destruct (check_compatible coords e) as [[]|] eqn:C; [|discriminate]. cbn [bind].
  intros H. injection H as <-. unfold div.
  assert (M : exists u, mapM (check_compatible coords) (map (derivative e) coords) = Ok u).
  { assert (G : forall c, check_compatible coords (derivative e c) = Ok tt).
    { intros c. apply check_compatible_ok. intros f Hf Hi. rewrite check_compatible_ok in C. apply C; auto.
      eapply subterms_derivative; eauto. }
    assert (K : forall l, exists u, mapM (check_compatible coords) (map (derivative e) l) = Ok u); [|apply K].
    induction l as [|d l IH]; cbn [mapM map]; eauto.
    rewrite G. cbn [bind]. destruct IH as [u ->]. cbn [bind]. eauto. }
  destruct M as [u ->]. cbn [bind]. do 2 f_equal.
  clear C. induction coords; simpl; congruence.
Qed.

Lemma laplacian {A : RAlg} (I : interp A) coords e g : gradient coords e = Ok g ->
  (exists f, a_function f /\ In f (subterms e)) ->
  Forall2 (fun c d => value I d = dd c (value I e)) coords g /\
  exists r, div coords g = Ok r /\
    value I r = fold_right cadd c0 (map (fun c => dd c (dd c (value I e))) coords).
Proof.
  intros G (f & Hf & Hi). pose proof (div_gradient _ _ _ G) as D.
  unfold gradient in G. destruct (check_compatible coords e) as [[]|] eqn:C; [|discriminate]. cbn [bind] in G.
  injection G as <-. rewrite check_compatible_ok in C.
  assert (S1 : forall c, In c coords -> In (SSym Plain c) (subterms e)).
  { intros c Hc. apply subterms_trans with f; auto. apply arg_of_function; auto. }
  split.
  - clear D C. assert (H : incl coords coords) by apply incl_refl. revert H. generalize coords at 1 3 4.
    intros l. induction l as [|c l IH]; intros H; simpl; constructor.
    + apply derivative_value. apply S1, H. simpl; auto.
    + apply IH. intros x Hx. apply H. simpl; auto.
  - eexists. split; [exact D|]. cbn [value]. rewrite map_map. f_equal. apply map_ext_in. intros c Hc.
    rewrite derivative_value; [rewrite derivative_value; auto|].
    assert (X := S1 c Hc). assert (X' := X). apply smem_true in X'. unfold derivative. rewrite X'.
    destruct e; try (right; apply in_or_app; left; exact X).
    simpl in X. destruct X as [X|X]; [discriminate|]. right. apply in_app_or in X as [X|X]; apply in_or_app; auto.
    right. apply in_map_iff in X as ([d n] & Hd & Hin). injection Hd as ->.
    clear - Hin. induction vars as [|[d m] v IH]; [contradiction|]. cbn [bump].
    destruct (String.eqb d c) eqn:E.
    + apply String.eqb_eq in E. subst. simpl. auto.
    + destruct Hin as [Hin|Hin]; [injection Hin as -> ->; rewrite String.eqb_refl in E; discriminate|].
      destruct (String.compare c d); simpl; auto.
Qed.

Lemma gradient_fails coords e : gradient coords e = Err ValueError <->
  exists f c, a_function f /\ In f (subterms e) /\ In c coords /\ ~ In (SSym Plain c) (args f).
Proof.
  unfold gradient. split.
  - unfold check_compatible. destruct (forallb _ _) eqn:F; [discriminate|]. intros _.
    assert (H : exists f, In f (atoms is_function e) /\ is_compatible coords f = false).
    { clear - F. induction (atoms is_function e) as [|f l IH]; [discriminate|]. simpl in F.
      destruct (is_compatible coords f) eqn:E; [|exists f; simpl; auto].
      destruct (IH F) as (g & Hg & Hc). exists g. simpl; auto. }
    destruct H as (f & Hf & Hc). apply in_atoms in Hf as [H1 H2]. apply is_function_iff in H1.
    unfold is_compatible in Hc. assert (H : exists c, In c coords /\ smem (SSym Plain c) (args f) = false).
    { clear - Hc. induction coords as [|c l IH]; [discriminate|]. simpl in Hc.
      destruct (smem (SSym Plain c) (args f)) eqn:E; [|exists c; simpl; auto].
      destruct (IH Hc) as (g & Hg & Hc'). exists g. simpl; auto. }
    destruct H as (c & H3 & H4). exists f, c. apply smem_false in H4. auto.
  - intros (f & c & H1 & H2 & H3 & H4). rewrite check_compatible_err; auto.
    intros C. rewrite check_compatible_ok in C. apply H4. eauto.
Qed.

(** ** comparison of expressions *)
Lemma in_terms x e : In x (terms_of e) <-> term_of x e.
Proof. unfold terms_of, term_of. rewrite nodup_In. destruct e; simpl; intuition. Qed.
Lemma compare_partition expand e1 e2 :
  let s1 := terms_of (expand e1) in let s2 := terms_of (expand e2) in
  forall x, (In x (common expand e1 e2) <-> In x s1 /\ In x s2) /\
            (In x (fst (specific expand e1 e2)) <-> In x s1 /\ ~ In x s2) /\
            (In x (snd (specific expand e1 e2)) <-> In x s2 /\ ~ In x s1).
Proof.
  intros s1 s2 x. assert (C : In x (common expand e1 e2) <-> In x s1 /\ In x s2).
  { unfold common, sets. cbn [fst snd]. rewrite filter_In, smem_true. tauto. }
  split; [exact C|]. unfold specific, sets. cbn [fst snd]. rewrite !in_difference. fold s1 s2. tauto.
Qed.
Lemma compare_same expand e1 e2 :
  (specific expand e1 e2 = ([], []) <->
   forall x, In x (terms_of (expand e1)) <-> In x (terms_of (expand e2))).
Proof.
  pose proof (compare_partition expand e1 e2) as P. cbv zeta in P. split.
  - intros E x. destruct (P x) as (_ & P1 & P2). rewrite E in P1, P2. cbn [fst snd] in *.
    simpl in P1, P2.
    destruct (in_dec sx_eq_dec x (terms_of (expand e1))), (in_dec sx_eq_dec x (terms_of (expand e2))); tauto.
  - intros H. destruct (specific expand e1 e2) as [a b]. cbn [fst snd] in P.
    destruct a as [|x a]; [|exfalso; destruct (P x) as (_ & P1 & _); specialize (H x); simpl in P1; tauto].
    destruct b as [|x b]; [|exfalso; destruct (P x) as (_ & _ & P2); specialize (H x); simpl in P2; tauto].
    reflexivity.
Qed.

(** ** coordinates of shifted functions *)
Lemma one_or_two {A} (l : list A) a b : NoDup l -> In a l -> (forall y, In y l -> y = a \/ y = b) -> l = [a] \/ Permutation l [a; b].
Proof.
  intros N I H. destruct (in_split _ _ I) as (l1 & l2 & ->). apply NoDup_remove in N as (N & Na).
  assert (P : forall m, NoDup m -> (forall y, In y m -> y = b) -> m = [] \/ m = [b]).
  { intros [|x m] Nm Hm; [auto|right]. rewrite (Hm x (or_introl eq_refl)) in *. f_equal. destruct m as [|z m]; [reflexivity|exfalso].
    inversion Nm as [|? ? X _]. apply X. left. apply Hm. right. left. reflexivity. }
  destruct (P (l1 ++ l2) N) as [E|E].
  - intros y Hy. destruct (H y) as [->|]; [|contradiction|assumption]. rewrite in_app_iff in *. cbn. tauto.
  - apply app_eq_nil in E as (-> & ->). left. reflexivity.
  - right. rewrite <- Permutation_middle, E. reflexivity.
Qed.
Lemma atoms_nodup p e : NoDup (atoms p e). Proof. unfold atoms. apply NoDup_nodup. Qed.
Lemma in_symbols k n e : In (SSym k n) (subterms e) -> In (SSym k n) (atoms is_symbol e).
Proof. intros H. unfold atoms. rewrite nodup_In, filter_In. auto. Qed.
Lemma symbols_only y e : In y (atoms is_symbol e) -> exists k n, y = SSym k n /\ In (SSym k n) (subterms e).
Proof. unfold atoms. rewrite nodup_In, filter_In. intros (H1 & H2). destruct y; try discriminate. eauto. Qed.
Lemma perm_pair {A} (l : list A) a b : Permutation l [a; b] -> l = [a; b] \/ l = [b; a].
Proof.
  intros P. pose proof (Permutation_length P) as L. destruct l as [|x [|y [|]]]; try discriminate.
  apply Permutation_length_2 in P as [[-> ->]|[-> ->]]; auto.
Qed.
Lemma coordinate_shift enum (E : forall l, Permutation (enum l) l) arg k s :
  (exists c r, s = String c r /\ c <> "d"%char) ->
  Permutation (atoms is_symbol arg) [SSym k s; SSym Plain (append "d" s)] ->
  coordinate_of enum arg = Ok (SSym k s, SSym Plain (append "d" s)).
Proof.
  intros (c & r & -> & N) P. assert (P' := Permutation_trans (E _) P). unfold coordinate_of.
  apply perm_pair in P' as [->| ->]; simpl.
  - apply Ascii.eqb_neq in N. rewrite N. reflexivity.
  - reflexivity.
Qed.
Lemma coordinate_alone enum (E : forall l, Permutation (enum l) l) arg k s :
  atoms is_symbol arg = [SSym k s] ->
  coordinate_of enum arg = Ok (SSym k s, SSym Plain (append "d" s)).
Proof.
  intros H. unfold coordinate_of. rewrite H. pose proof (E [SSym k s]) as P.
  apply Permutation_sym, Permutation_length_1_inv in P. rewrite P. reflexivity.
Qed.

Lemma shifted_coordinates enum (E : forall l, Permutation (enum l) l) f l :
  Forall2 (fun arg s => (exists c r, s = String c r /\ c <> "d"%char) /\
             (atoms is_symbol arg = [SSym Plain s] \/
              Permutation (atoms is_symbol arg) [SSym Plain s; SSym Plain (append "d" s)])) (args f) l ->
  is_function f = true ->
  get_function_coordinates enum f = Ok (map (SSym Plain) l, map (fun s => SSym Plain (append "d" s)) l).
Proof.
  intros H F. unfold get_function_coordinates. rewrite F.
  assert (M : mapM (coordinate_of enum) (args f) = Ok (map (fun s => (SSym Plain s, SSym Plain (append "d" s))) l)).
  { induction H as [|a s la ls [H1 H2] _ IH]; cbn [mapM map]; auto.
    assert (C : coordinate_of enum a = Ok (SSym Plain s, SSym Plain (append "d" s))).
    { destruct H2 as [H2|H2]; [apply coordinate_alone; auto|apply coordinate_shift; auto]. }
    rewrite C, IH. reflexivity. }
  rewrite M. cbn [bind]. rewrite !map_map. reflexivity.
Qed.

Lemma mapM_app_ok {A B} (f : A -> res B) v w u : mapM f (v ++ w) = Ok u -> exists u', mapM f v = Ok u'.
Proof.
  revert u. induction v as [|a v IH]; intros u; cbn [mapM app]; eauto.
  destruct (f a); [|discriminate]. cbn [bind]. destruct (mapM f (v ++ w)); [|discriminate].
  destruct (IH _ eq_refl) as [u' ->]. cbn [bind]. eauto.
Qed.
Lemma combine_app_firsts {A B} (v w : list A) (c : list B) : List.length v = List.length c -> combine (v ++ w) c = combine v c.
Proof.
  revert c. induction v as [|a v IH]; intros [|b c] L; try discriminate; simpl.
  - destruct w; reflexivity.
  - rewrite IH; auto.
Qed.
Lemma div_truncates coords v w r : List.length v = List.length coords ->
  div coords (v ++ w) = Ok r -> div coords v = Ok r.
Proof.
  intros L. unfold div. destruct (mapM (check_compatible coords) (v ++ w)) eqn:M; [|discriminate].
  apply mapM_app_ok in M as [u ->]. cbn [bind]. rewrite combine_app_firsts; auto.
Qed.
