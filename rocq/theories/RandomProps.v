(** Theorems C42-C45 and C84: israndom and Expectation (symbolic/random.py). *)
From Coq Require Import List Arith Bool String QArith Qcanon.
From Verif Require Import PyBase SymModel RandomModel Reynolds ReynoldsInst RandomSpec
  RandomProofs RandomMore RandomTotal RandomInst.
Import ListNotations.
Close Scope Q_scope. Close Scope Qc_scope.
Open Scope nat_scope.
Open Scope string_scope.
Open Scope list_scope.

(** what israndom says is not random is its own average, for every interpretation *)
Theorem C42_israndom_sound : forall (A : RAlg) (I : interp A), lawful I ->
  forall e, bounds_ok e -> israndom e = Ok false -> EE (value I e) = value I e.
Proof. intros A I L e. exact (israndom_det L e). Qed.
Print Assumptions C42_israndom_sound.

(** f(x)*E[X(x,y,omega)] + D_x E[X]: contains omega, is not random *)
Definition det_example : sx :=
  SAdd [SMul [SApp "f" [SSym Plain "x"]; SEx X_field]; SDer (SEx X_field) [("x", 1)]].
Example C42_israndom_sound_ex :
  lawful (w_int lam12) /\ bounds_ok det_example /\ has omega det_example = true /\
  israndom det_example = Ok false.
Proof.
  repeat split; try reflexivity; try apply w_lawful.
  intros a ls p b H. simpl in H. intuition discriminate.
Qed.

Theorem C42_average_never_random : forall e, israndom (SEx e) = Ok false.
Proof. reflexivity. Qed.
Theorem C42_without_omega_never_random : forall e, ~ In omega (subterms e) -> israndom e = Ok false.
Proof. intros e H. apply has_israndom. apply has_false. exact H. Qed.
Print Assumptions C42_without_omega_never_random.
Example C42_without_omega_ex : ~ In omega (subterms (SDer (SApp "f" [time; SSym Plain "x"]) [("t", 1)])).
Proof. simpl. intuition discriminate. Qed.

(** an answer is given for every expression of the classes the function knows *)
Theorem C42_answers : forall e, known e -> exists b, israndom e = Ok b.
Proof. exact israndom_ok. Qed.
Print Assumptions C42_answers.
Example C42_answers_ex : known mixed_X /\ israndom mixed_X = Ok true.
Proof.
  split; [|reflexivity]. split; [|split].
  - intros h l H. simpl in H. intuition discriminate.
  - intros a v H. simpl in H.
    repeat (destruct H as [H|H]; [first [discriminate | injection H as <- <-; discriminate]|]); contradiction.
  - intros a v H. simpl in H. intuition discriminate.
Qed.

(** the bounds of an integral are not looked at: with random bounds the answer False is wrong *)
Theorem C42_random_bounds_refuted : exists e (A : RAlg) (I : interp A),
  lawful I /\ israndom e = Ok false /\ EE (value I e) <> value I e.
Proof.
  exists int_random_bound, (wave lam12), (w_int lam12).
  exact (conj (w_lawful lam12) (conj int_random_bound_nonrandom (int_random_bound_not_det lam12))).
Qed.
Print Assumptions C42_random_bounds_refuted.

(** Expectation(e) denotes the mean of e *)
Theorem C43_sound : forall expand, expansion expand ->
  forall (A : RAlg) (I : interp A), lawful I ->
  forall n e r, bounds_ok e -> alone_single expand n e -> expectation expand n e = Ok r ->
  value I r = EE (value I e).
Proof. intros expand X A I L n e r. exact (expectation_sound expand X I L n e r). Qed.
Print Assumptions C43_sound.

Theorem C43_sound_without_mixed_derivatives : forall expand, expansion expand ->
  forall (A : RAlg) (I : interp A), lawful I ->
  forall n e r, bounds_ok e -> no_mixed e -> expectation expand n e = Ok r ->
  value I r = EE (value I e).
Proof.
  intros expand X A I L n e r B M. exact (expectation_sound expand X I L n e r B (mixed_alone expand X n e M)).
Qed.
Print Assumptions C43_sound_without_mixed_derivatives.

(** the concrete expansion of products and natural powers over sums meets what is asked of expand *)
Theorem C43_distribute : expansion distribute.
Proof. exact distribute_expansion. Qed.
Print Assumptions C43_distribute.
(** E[(X + f) D_x X + D_x X^2], expanded *)
Definition f_field : sx := SApp "f" [SSym Plain "x"].
Definition E_example : sx :=
  SAdd [SMul [SAdd [X_field; f_field]; SDer X_field [("x", 1)]];
        SDer (SMul [X_field; X_field]) [("x", 1)]].
Definition E_result : sx :=
  SAdd [SEx (SMul [X_field; SDer X_field [("x", 1)]]);
        SMul [f_field; SDer (SEx X_field) [("x", 1)]];
        SDer (SEx (SMul [X_field; X_field])) [("x", 1)]].
Example C43_sound_ex : expansion distribute /\ lawful (w_int lam12) /\ bounds_ok E_example /\
  no_mixed E_example /\ expectation distribute 6 E_example = Ok E_result.
Proof.
  split; [apply distribute_expansion|]. split; [apply w_lawful|]. split; [|split; [|reflexivity]].
  - intros a ls p b H. simpl in H. intuition discriminate.
  - split; intros a v H; simpl in H;
      repeat (destruct H as [H|H]; [first [discriminate | injection H as <- <-; reflexivity]|]); contradiction.
Qed.
(** a product of two random factors may contain mixed derivatives *)
Example C43_mixed_in_product_ex :
  alone_single distribute 5 (SMul [X_field; mixed_X]) /\
  expectation distribute 5 (SMul [X_field; mixed_X]) = Ok (SEx (SMul [X_field; mixed_X])).
Proof.
  split; [|reflexivity]. intros _ p H. injection H as <-. intros _ p H. injection H as <-.
  intros _ p H. injection H as <-. intros _ p H. injection H as <-. intros _ p H. injection H as <-. exact Logic.I.
Qed.

(** deterministic expressions are returned expanded *)
Theorem C43_deterministic_unchanged : forall expand n e,
  israndom (expand e) = Ok false -> expectation expand (S n) e = Ok (expand e).
Proof. intros expand n e. exact (expectation_again expand n e). Qed.
Print Assumptions C43_deterministic_unchanged.
Example C43_deterministic_ex : israndom (distribute det_example) = Ok false.
Proof. reflexivity. Qed.

(** sums are distributed, derivatives taken out and deterministic factors pulled out: the
    only averages left are of irreducible expressions *)
Theorem C43_fully_distributed : forall expand, expansion expand -> forall n e r,
  ex_free e -> expectation expand n e = Ok r ->
  forall a, In (SEx a) (subterms r) -> irreducible a.
Proof. exact expectation_irreducible. Qed.
Print Assumptions C43_fully_distributed.
Example C43_fully_distributed_ex : ex_free E_example /\ In (SEx X_field) (subterms E_result).
Proof. split; [intros a H; simpl in H; intuition discriminate|simpl; tauto]. Qed.

(** evaluation terminates (for the distributing expansion) on every expression of known classes *)
Theorem C43_total : forall e, known e ->
  exists N, forall n, N <= n -> exists r, expectation distribute n e = Ok r.
Proof. exact expectation_total_all. Qed.
Print Assumptions C43_total.

(** both sides of an equation are averaged *)
Theorem C43_equation : forall expand eq_truth, expansion expand ->
  forall (A : RAlg) (I : interp A), lawful I -> forall n l r l' r',
  bounds_ok l -> bounds_ok r ->
  alone_single expand n (expand l) -> alone_single expand n (expand r) ->
  expectation_obj expand eq_truth n (OEq l r) = Ok (OEq l' r') ->
  value I l' = EE (value I l) /\ value I r' = EE (value I r).
Proof. intros expand q X A I L n l r l' r'. exact (expectation_eq_sound expand q X I L n l r l' r'). Qed.
Print Assumptions C43_equation.
Example C43_equation_ex :
  expectation_obj distribute (fun _ _ => None) 5 (OEq (SDer X_field [("x", 1)]) E_example)
  = Ok (OEq (SDer (SEx X_field) [("x", 1)]) E_result).
Proof. reflexivity. Qed.

(** all variables of a mixed derivative but the first are dropped *)
Theorem C44_first_variable_only : forall expand n a x v m,
  expand (SDer a (x :: v)) = SDer a (x :: v) -> israndom a = Ok true ->
  has omega (SDer a (x :: v)) = true ->
  expectation expand n a = Ok m ->
  expectation expand (S n) (SDer a (x :: v)) = Ok (SDer m [x]).
Proof.
  intros expand n a x v m E R N H. cbn [expectation]. rewrite E. cbn [israndom]. rewrite N. cbn [negb].
  rewrite R. cbn [bind negb]. rewrite H. reflexivity.
Qed.
Print Assumptions C44_first_variable_only.
Example C44_first_variable_ex : expectation distribute 3 mixed_X = Ok (SDer (SEx X_field) [("x", 1)]).
Proof. reflexivity. Qed.

Theorem C44_single_variable : forall expand, expansion expand ->
  forall (A : RAlg) (I : interp A), lawful I -> forall n a x r,
  bounds_ok a -> no_mixed a -> expectation expand n (SDer a [x]) = Ok r ->
  value I r = ders [x] (EE (value I a)).
Proof.
  intros expand X A I L n a x r B M H.
  assert (B' : bounds_ok (SDer a [x])).
  { intros b ls p q [E|Hi]; [discriminate|]. apply in_app_or in Hi as [Hi|[Hi|[]]]; [|discriminate]. eapply B; eauto. }
  assert (M' : no_mixed (SDer a [x])).
  { split; intros b v [E|Hi]; try discriminate; try (injection E as <- <-; reflexivity);
      apply in_app_or in Hi as [Hi|[Hi|[]]]; try discriminate; eapply M; eauto. }
  rewrite <- EE_ders.
  exact (expectation_sound expand X I L n _ r B' (mixed_alone expand X n _ M') H).
Qed.
Print Assumptions C44_single_variable.

Theorem C44_mixed_refuted : exists e r (A : RAlg) (I : interp A), lawful I /\
  (forall expand k, expansion expand -> expand e = e -> expand X_field = X_field ->
     expectation expand (S (S k)) e = Ok r) /\
  value I r <> EE (value I e).
Proof.
  exists mixed_X, (SDer (SEx X_field) [("x", 1)]), (wave lam12), (w_int lam12).
  exact (conj (w_lawful lam12) (conj (fun expand k _ => mixed_X_result expand k) mixed_X_wrong)).
Qed.
Print Assumptions C44_mixed_refuted.

Theorem C45_result_not_random : forall expand n e r,
  expectation expand n e = Ok r -> israndom r = Ok false.
Proof. exact expectation_det. Qed.
Print Assumptions C45_result_not_random.

Theorem C45_idempotent : forall expand, expansion expand -> forall n k e r,
  expectation expand n e = Ok r -> expectation expand (S k) r = Ok (expand r).
Proof.
  intros expand X n k e r H. exact (expectation_again expand k r (x_det _ X r (expectation_det expand n e r H))).
Qed.
Print Assumptions C45_idempotent.
Example C45_ex : expectation distribute 6 E_example = Ok E_result /\ distribute E_result = E_result.
Proof. split; reflexivity. Qed.

(** Expectation.has looks for the patterns other than omega in the argument *)
Theorem C84_has : forall e patterns,
  ex_has e patterns = true <-> exists s, In s patterns /\ s <> omega /\ In s (subterms e).
Proof.
  intros e ps. unfold ex_has. rewrite existsb_exists. split.
  - intros (s & Hs & H). apply filter_In in Hs as [Hs N]. exists s. repeat split; auto.
    + intros E. destruct (sx_eq_dec s omega); [discriminate|contradiction].
    + apply has_true. exact H.
  - intros (s & Hs & N & H). exists s. split; [apply filter_In; split; auto|apply has_true; exact H].
    destruct (sx_eq_dec s omega); [contradiction|reflexivity].
Qed.
Print Assumptions C84_has.
Example C84_has_ex : ex_has X_field [omega; SSym Plain "x"] = true /\ ex_has X_field [omega] = false.
Proof. split; reflexivity. Qed.

(** every expression contains itself, except an average *)
Theorem C84_contains_itself_refuted : exists e, has (SEx e) (SEx e) = true /\ ex_has e [SEx e] = false.
Proof. exists X_field. split; reflexivity. Qed.
Print Assumptions C84_contains_itself_refuted.
Theorem C84_never_contains_itself : forall e, ex_has e [SEx e] = false.
Proof. exact ex_has_self. Qed.
Print Assumptions C84_never_contains_itself.
Print Assumptions C42_average_never_random.
