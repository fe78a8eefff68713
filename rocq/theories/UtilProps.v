(** Property theorems: equations, coordinate systems, comparisons, upper triangles. *)
From Coq Require Import List Arith Bool String Ascii QArith Qcanon Permutation Lia Sorted.
From Verif Require Import PyBase SymModel Reynolds RandomModel RandomSpec RandomProofs RandomInst PDEModel PDESpec UtilModel UtilSpec UtilProofs.
Import ListNotations.
Close Scope Q_scope. Close Scope Qc_scope.
Open Scope nat_scope.
Open Scope string_scope.
Open Scope list_scope.

(** an arithmetic that simplifies nothing, decisions by equality of trees *)
Definition plain_arith : arith :=
  {| a_add a b := SAdd [a; b]; a_mul a b := SMul [a; b];
     a_sub a b := SAdd [a; SMul [SNum (-1); b]]; a_neg a := SMul [SNum (-1); a] |}.
Definition same_tree (a b : sx) : option bool := if sx_eq_dec a b then Some true else None.
Section Plain.
  Context {A : RAlg} (I : interp A).
  Add Ring A_ring : (c_th A).
  Example plain_sound : sound_arith I plain_arith /\ sound_truth I same_tree.
  Proof.
    split.
    - intros a b. assert (M1 : cq (Q2Qc (-1)) = copp c1 :> A).
      { change (Q2Qc (-1)) with (- (1))%Qc. rewrite cq_opp, cq_1. reflexivity. }
      cbn [plain_arith a_add a_mul a_sub a_neg value map fold_right]. rewrite M1. repeat split; ring.
    - intros a b t. unfold same_tree. destruct (sx_eq_dec a b) as [->|]; [|discriminate].
      injection 1 as <-. tauto.
  Qed.
End Plain.

(** C70 *)
Theorem C70_sum_and_difference {A : RAlg} (I : interp A) ar eq_truth :
  sound_arith I ar -> sound_truth I eq_truth -> forall q l r, value I l = value I r ->
  (exists o, eq_add ar eq_truth q (ERel l r) = Ok o /\ (sat I o <-> value I (fst q) = value I (snd q))) /\
  (exists o, eq_sub ar eq_truth q (ERel l r) = Ok o /\ (sat I o <-> value I (fst q) = value I (snd q))).
Proof.
  intros S T q l r E. split; eexists; (split; [reflexivity|]).
  - eapply sat_add; eauto. reflexivity.
  - eapply sat_sub; eauto. reflexivity.
Qed.
Print Assumptions C70_sum_and_difference.
Theorem C70_negation {A : RAlg} (I : interp A) ar eq_truth :
  sound_arith I ar -> sound_truth I eq_truth -> forall q,
  sat I (eq_neg ar eq_truth q) <-> value I (fst q) = value I (snd q).
Proof. intros S T q. apply sat_neg; auto. Qed.
Print Assumptions C70_negation.
Theorem C70_multiple {A : RAlg} (I : interp A) ar eq_truth :
  sound_arith I ar -> sound_truth I eq_truth -> forall q alpha,
  (value I (fst q) = value I (snd q) -> sat I (eq_mul ar eq_truth q alpha)) /\
  (forall b, cmul b (value I alpha) = c1 ->
     sat I (eq_mul ar eq_truth q alpha) -> value I (fst q) = value I (snd q)).
Proof.
  intros S T q a. split; [apply sat_mul; auto|]. intros b. apply sat_mul_inv; auto.
Qed.
Print Assumptions C70_multiple.
Theorem C70_product {A : RAlg} (I : interp A) ar eq_truth :
  sound_arith I ar -> sound_truth I eq_truth -> forall q l r o,
  eq_imul_eq ar eq_truth q (ERel l r) = Ok o ->
  value I (fst q) = value I (snd q) -> value I l = value I r -> sat I o.
Proof. intros S T q l r o. apply sat_imul; auto. Qed.
Print Assumptions C70_product.
(** the sides are not exchanged: the left side of the result comes from the left sides *)
Theorem C70_sides {A : RAlg} (I : interp A) ar eq_truth : sound_arith I ar -> forall q l r alpha l' r',
  (eq_add ar eq_truth q (ERel l r) = Ok (ERel l' r') -> value I l' = cadd (value I (fst q)) (value I l) /\ value I r' = cadd (value I (snd q)) (value I r)) /\
  (eq_sub ar eq_truth q (ERel l r) = Ok (ERel l' r') -> value I l' = csub (value I (fst q)) (value I l) /\ value I r' = csub (value I (snd q)) (value I r)) /\
  (eq_imul_eq ar eq_truth q (ERel l r) = Ok (ERel l' r') -> value I l' = cmul (value I (fst q)) (value I l) /\ value I r' = cmul (value I (snd q)) (value I r)) /\
  (eq_neg ar eq_truth q = ERel l' r' -> value I l' = copp (value I (fst q)) /\ value I r' = copp (value I (snd q))) /\
  (eq_mul ar eq_truth q alpha = ERel l' r' -> value I l' = cmul (value I alpha) (value I (fst q)) /\ value I r' = cmul (value I alpha) (value I (snd q))).
Proof.
  intros S q l r alpha l' r'. destruct (op_sides I ar eq_truth S q l r alpha) as (H1 & H2 & H3 & H4 & H5).
  repeat (split; [first [exact (H1 (ERel l' r')) | exact (H2 (ERel l' r')) | exact (H3 (ERel l' r')) | intros E; rewrite E in H4; exact H4]|]).
  intros E; rewrite E in H5; exact H5.
Qed.
Print Assumptions C70_sides.
Example C70_sides_example : eq_imul_eq plain_arith same_tree (SSym Plain "a", SSym Plain "b") (ERel (SSym Plain "c") (SSym Plain "d")) =
  Ok (ERel (SMul [SSym Plain "a"; SSym Plain "c"]) (SMul [SSym Plain "b"; SSym Plain "d"])).
Proof. vm_compute. reflexivity. Qed.
Theorem C70_isolate {A : RAlg} (I : interp A) eq_truth : sound_truth I eq_truth -> forall q x o,
  isolate eq_truth q x = Some (Ok o) ->
  exists a b s, o = Eq eq_truth x s /\
    csub (value I (fst q)) (value I (snd q)) = cadd (cmul (value I a) (value I x)) (value I b) /\
    (cmul (value I a) (value I (SPow a (SNum (-1)))) = c1 ->
     (sat I o <-> value I (fst q) = value I (snd q))).
Proof. intros T q x o. apply isolate_equiv; auto. Qed.
Print Assumptions C70_isolate.
(** D_t u + u D_x u = 0, isolate D_t u *)
Definition U := SApp "u" [time; SSym Plain "x"].
Definition Ut := SDer U [("t", 1)].
Definition Ux := SDer U [("x", 1)].
Section C70Example.
  Context {A : RAlg} (I : interp A).
  Add Ring B_ring : (c_th A).
  Example C70_example : exists a b,
    isolate same_tree (SAdd [Ut; SMul [U; Ux]], SNum 0) Ut =
      Some (Ok (ERel Ut (SMul [SNum (-1); b; SPow a (SNum (-1))]))) /\
    value I a = c1 /\ value I b = cmul (value I U) (value I Ux).
  Proof.
    eexists. eexists. split; [vm_compute; reflexivity|].
    split; cbn [value map fold_right]; rewrite ?cq_1, ?cq_0. { ring. }
    unfold U, Ux; cbn [value map]; unfold U, time; cbn [value map]. ring.
  Qed.
End C70Example.
(** C71: subs, doit and expand are [eq_map] of what they do to each side *)
Theorem C71_degenerate eq_truth op q :
  match eq_truth (op (fst q)) (op (snd q)) with
  | Some _ => eq_map eq_truth op q = Err TypeError
  | None => eq_map eq_truth op q = Ok (ERel (op (fst q)) (op (snd q)))
  end.
Proof. exact (truth_value_raises eq_truth op q). Qed.
Print Assumptions C71_degenerate.
(** a = b with b replaced by a *)
Example C71_example :
  eq_map same_tree (fun e => if sx_eq_dec e (SSym Plain "b") then SSym Plain "a" else e)
    (SSym Plain "a", SSym Plain "b") = Err TypeError /\
  eq_map same_tree (fun e => e) (SSym Plain "a", SSym Plain "b") = Ok (ERel (SSym Plain "a") (SSym Plain "b")).
Proof. split; vm_compute; reflexivity. Qed.
(** the sum of an equation with a difference that cancelled raises IndexError *)
Theorem C71_sum_of_truth_value ar eq_truth q b :
  eq_add ar eq_truth q (EBool b) = Err IndexError /\ eq_sub ar eq_truth q (EBool b) = Err IndexError /\
  eq_imul_eq ar eq_truth q (EBool b) = Err TypeError.
Proof. repeat split. Qed.
Print Assumptions C71_sum_of_truth_value.

(** C72 *)
Theorem C72_gradient_fails coords e : gradient coords e = Err ValueError <->
  exists f c, a_function f /\ In f (subterms e) /\ In c coords /\ ~ In (SSym Plain c) (args f).
Proof. exact (gradient_fails coords e). Qed.
Print Assumptions C72_gradient_fails.
Theorem C72_laplacian {A : RAlg} (I : interp A) coords e g : gradient coords e = Ok g ->
  (exists f, a_function f /\ In f (subterms e)) ->
  Forall2 (fun c d => value I d = dd c (value I e)) coords g /\
  exists r, div coords g = Ok r /\
    value I r = fold_right cadd c0 (map (fun c => dd c (dd c (value I e))) coords).
Proof. exact (laplacian I coords e g). Qed.
Print Assumptions C72_laplacian.
Definition f3 := SApp "f" [time; SSym Plain "x"; SSym Plain "y"].
Example C72_example :
  gradient ["x"; "y"] f3 = Ok [SDer f3 [("x", 1)]; SDer f3 [("y", 1)]] /\
  div ["x"; "y"] [SDer f3 [("x", 1)]; SDer f3 [("y", 1)]] =
    Ok (SAdd [SDer f3 [("x", 2)]; SDer f3 [("y", 2)]]) /\
  gradient ["x"; "y"] U = Err ValueError.
Proof. repeat split; vm_compute; reflexivity. Qed.
(** components beyond the coordinates are checked, then ignored *)
Theorem C72_extra_components_ignored coords v w r : List.length v = List.length coords ->
  div coords (v ++ w) = Ok r -> div coords v = Ok r.
Proof. exact (div_truncates coords v w r). Qed.
Print Assumptions C72_extra_components_ignored.
Example C72_extra_example : exists r, div ["x"] [U; SMul [SNum 5; U]] = Ok r /\ div ["x"] [U] = Ok r.
Proof. eexists. split; vm_compute; reflexivity. Qed.
(** a field that depends on every coordinate, through a composition, is refused *)
Theorem C72_composition_refuted : exists coords e,
  (forall c, In c coords -> In (SSym Plain c) (subterms e)) /\
  (exists f, e = SApp "exp" [f] /\ gradient coords f <> Err ValueError) /\
  gradient coords e = Err ValueError.
Proof.
  exists ["x"; "y"], (SApp "exp" [f3]). split; [|split; [|vm_compute; reflexivity]].
  - intros c H. simpl in H. simpl. intuition (subst; auto 10).
  - exists f3. split; [reflexivity|]. vm_compute. discriminate.
Qed.
Print Assumptions C72_composition_refuted.

(** C73 *)
Theorem C73_partition expand e1 e2 :
  forall x, (In x (common expand e1 e2) <-> term_of x (expand e1) /\ term_of x (expand e2)) /\
            (In x (fst (specific expand e1 e2)) <-> term_of x (expand e1) /\ ~ term_of x (expand e2)) /\
            (In x (snd (specific expand e1 e2)) <-> term_of x (expand e2) /\ ~ term_of x (expand e1)).
Proof. intros x. rewrite <- !in_terms. exact (compare_partition expand e1 e2 x). Qed.
Print Assumptions C73_partition.
Theorem C73_same_terms expand e1 e2 : specific expand e1 e2 = ([], []) <->
  forall x, term_of x (expand e1) <-> term_of x (expand e2).
Proof.
  rewrite compare_same. split; intros H x; [rewrite <- !in_terms|rewrite !in_terms]; apply H.
Qed.
Print Assumptions C73_same_terms.
Example C73_example : let a := SSym Plain "a" in let b := SSym Plain "b" in
  common (fun e => e) (SAdd [a; b]) b = [b] /\ specific (fun e => e) (SAdd [a; b]) b = ([a], []).
Proof. split; vm_compute; reflexivity. Qed.
(** terms are compared as wholes: 2a and 3a have nothing in common *)
Theorem C73_coefficients_refuted : exists e1 e2 a,
  (forall (A : RAlg) (I : interp A), exists k1 k2, value I e1 = cmul (cq k1) (value I a) /\
     value I e2 = cmul (cq k2) (value I a)) /\
  common (fun e => e) e1 e2 = [].
Proof.
  exists (SMul [SNum 2; SSym Plain "a"]), (SMul [SNum 3; SSym Plain "a"]), (SMul [SSym Plain "a"]).
  split; [|vm_compute; reflexivity]. intros A I. exists (Q2Qc 2), (Q2Qc 3). split; reflexivity.
Qed.
Print Assumptions C73_coefficients_refuted.

(** C75 *)
Theorem C75_enumerates {A} n : exists ps : list (nat * nat),
  StronglySorted lex ps /\ (forall p, In p ps <-> fst p <= snd p /\ snd p < n) /\
  2 * List.length ps = n * S n /\
  forall M : nat -> nat -> A, upper_triangle n n M = map (fun p => M (fst p) (snd p)) ps.
Proof.
  exists (pairs_up n 0). split; [apply pairs_up_sorted|]. split; [|split].
  - intros p. rewrite in_pairs_up. lia.
  - apply pairs_up_length.
  - intros M. apply upper_triangle_pairs.
Qed.
Print Assumptions C75_enumerates.
Theorem C75_zip {A B} n (M : nat -> nat -> A) (N : nat -> nat -> B) :
  (forall x y, In (x, y) (combine (upper_triangle n n M) (upper_triangle n n N)) ->
     exists i j, i <= j < n /\ x = M i j /\ y = N i j) /\
  (forall i j, i <= j < n -> In (M i j, N i j) (combine (upper_triangle n n M) (upper_triangle n n N))).
Proof.
  rewrite !upper_triangle_pairs, combine_map. split.
  - intros x y H. apply in_map_iff in H as ([i j] & E & H). apply in_pairs_up in H. cbn [fst snd] in *.
    injection E as <- <-. exists i, j. split; [lia|auto].
  - intros i j H. apply in_map_iff. exists (i, j). split; [reflexivity|]. apply in_pairs_up. simpl. lia.
Qed.
Print Assumptions C75_zip.
Theorem C75_determines {A} n (M N : nat -> nat -> A) :
  (forall i j, M i j = M j i) -> (forall i j, N i j = N j i) ->
  upper_triangle n n M = upper_triangle n n N -> forall i j, i < n -> j < n -> M i j = N i j.
Proof.
  intros SM SN. rewrite !upper_triangle_pairs. intros H i j Hi Hj.
  destruct (Nat.le_ge_cases i j) as [L|L].
  - apply (map_eq_in _ _ _ H (i, j)). apply in_pairs_up. simpl. lia.
  - rewrite SM, SN. apply (map_eq_in _ _ _ H (j, i)). apply in_pairs_up. simpl. lia.
Qed.
Print Assumptions C75_determines.
Example C75_example : upper_triangle 3 3 (fun i j => 10 * i + j) = [0; 1; 2; 11; 12; 22].
Proof. reflexivity. Qed.

(** C87: coordinates of a shifted function *)
Theorem C87_shifted enum (E : forall l, Permutation (enum l) l) f l :
  Forall2 (fun arg s => (exists c r, s = String c r /\ c <> "d"%char) /\
             In (SSym Plain s) (subterms arg) /\
             forall k n, In (SSym k n) (subterms arg) -> k = Plain /\ (n = s \/ n = append "d" s)) (args f) l ->
  (exists g a, f = SApp g a) \/ (exists e, f = SEx e) ->
  get_function_coordinates enum f = Ok (map (SSym Plain) l, map (fun s => SSym Plain (append "d" s)) l).
Proof.
  intros H F. apply (shifted_coordinates enum E f l); [|destruct F as [(g & a & ->)|(e & ->)]; reflexivity].
  clear - H. induction H as [|arg s r l (H1 & H2 & H3) _ IH]; constructor; [|exact IH]. split; [exact H1|].
  apply one_or_two; [apply atoms_nodup|apply in_symbols; exact H2|].
  intros y Hy. destruct (symbols_only _ _ Hy) as (k & n & -> & I). destruct (H3 k n I) as (-> & [->| ->]); auto.
Qed.
Print Assumptions C87_shifted.
Definition f_shift := SApp "f" [time; SAdd [SSym Plain "x"; SMul [SNum 2; SSym Plain "dx"]]].
Example C87_example : get_function_coordinates (@rev sx) f_shift =
  Ok ([SSym Plain "t"; SSym Plain "x"], [SSym Plain "dt"; SSym Plain "dx"]).
Proof. vm_compute. reflexivity. Qed.
(** a coordinate whose name starts with d: coordinate and step are exchanged according to
    the order of a set *)
Theorem C87_depth_refuted : exists f a b,
  get_function_coordinates (fun l => l) f = Ok a /\ get_function_coordinates (@rev sx) f = Ok b /\ a <> b.
Proof.
  exists (SApp "f" [SAdd [SSym Plain "depth"; SSym Plain "ddepth"]]). eexists. eexists.
  split; [vm_compute; reflexivity|]. split; [vm_compute; reflexivity|]. discriminate.
Qed.
Print Assumptions C87_depth_refuted.
