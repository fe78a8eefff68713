(** Programs that cannot run, and the equations that are translated. *)
From Coq Require Import List Arith Bool String QArith Permutation Lia.
From Verif Require Import PyBase PyBaseFacts SymModel RandomProofs PDEModel PDESpec PDEProofs StrModel
  CodegenModel CodegenSpec CodegenProofs CodegenRun.
Import ListNotations.
Close Scope Q_scope.
Open Scope nat_scope.
Open Scope string_scope.
Open Scope list_scope.

Lemma foldM_not_ok {A B} (f : A -> B -> res A) l : forall a,
  (exists l1 b l2, l = l1 ++ b :: l2 /\ forall a', foldM f a l1 = Ok a' -> forall r, f a' b <> Ok r) ->
  forall r, foldM f a l <> Ok r.
Proof.
  intros a (l1 & b & l2 & -> & H) r F. rewrite foldM_app in F. destruct (foldM f a l1) as [a'|e] eqn:E; [|discriminate].
  cbn [bind foldM] in F. destruct (f a' b) as [a''|e] eqn:E2; [|discriminate]. eapply H; eauto.
Qed.

Section Stuck.
  Variable V : Type.
  Variables (v_num : Q -> V) (v_add v_mul v_pow : V -> V -> V) (v_zero v_one : V).
  Variable disc : list (string * nat) -> V -> res V.
  Variable attr : string -> res V.
  Variable exo : option (list V).
  Notation exec' := (exec V v_num v_add v_mul v_pow v_zero v_one disc attr exo).
  Notation eval' := (eval V v_num v_add v_mul v_pow v_zero v_one).

  Lemma eval_add m l : eval' m (SAdd l) = fold_right (fun x s => a <- eval' m x ;; b <- s ;; Ok (v_add a b))%py (Ok v_zero) l.
  Proof. induction l as [|x l IH]; [reflexivity|]. cbn [fold_right]. rewrite <- IH. reflexivity. Qed.
  Lemma eval_mul m l : eval' m (SMul l) = fold_right (fun x s => a <- eval' m x ;; b <- s ;; Ok (v_mul a b))%py (Ok v_one) l.
  Proof. induction l as [|x l IH]; [reflexivity|]. cbn [fold_right]. rewrite <- IH. reflexivity. Qed.

  Lemma call_fails m f r : call V m f <> Ok r.
  Proof. unfold call. destruct (dget _ _ _); discriminate. Qed.
  Lemma fold_fails (op : V -> V -> V) (one : V) m l : (exists x, In x l /\ forall r, eval' m x <> Ok r) -> forall r,
    fold_right (fun x s => a <- eval' m x ;; b <- s ;; Ok (op a b))%py (Ok one) l <> Ok r.
  Proof.
    intros (x & Hx & F). induction l as [|y l IH]; [contradiction|]. intros r. cbn [fold_right].
    destruct (eval' m y) as [a|e] eqn:E; [|discriminate]. cbn [bind]. destruct Hx as [->|Hx]; [exfalso; eapply F; eauto|].
    destruct (fold_right _ _ l) eqn:E2; [exfalso; eapply IH; eauto|discriminate].
  Qed.

  Lemma unreadable_fails constants bound e m : unreadable constants bound e ->
    (forall x, In x (map fst (m_env V m)) -> In x bound) -> forall r, eval' m e <> Ok r.
  Proof.
    intros U B. induction U as [k s N1 N|b x H|a v|h l|l e He U IH|l e He U IH|b x U IH|b x U IH]; intros r.
    - cbn [eval]. unfold lookup. destruct (dget string_dec s (m_env V m)) eqn:E; [|discriminate].
      apply dget_Some_key in E. exfalso. apply N, B, E.
    - cbn [eval]. rewrite H. apply call_fails.
    - apply call_fails.
    - apply call_fails.
    - rewrite eval_add. apply fold_fails. eauto.
    - rewrite eval_mul. apply fold_fails. eauto.
    - cbn [eval]. destruct (half x); [apply call_fails|]. destruct (eval' m b) eqn:E; [exfalso; eapply IH; eauto|discriminate].
    - cbn [eval]. destruct (half x); [apply call_fails|]. destruct (eval' m b); [|discriminate]. cbn [bind].
      destruct (eval' m x) eqn:E; [exfalso; eapply IH; eauto|discriminate].
  Qed.

  Lemma dset_fst {B} k (v : B) d x : In x (map fst (dset string_dec k v d)) -> x = k \/ In x (map fst d).
  Proof.
    induction d as [|[k' v'] d IH]; simpl; [intuition|]. destruct (string_dec k k'); simpl; intuition.
  Qed.
  Lemma exec_env m s m' : exec' m s = Ok m' -> forall x, In x (map fst (m_env V m')) -> In x (map fst (m_env V m)) \/ In x (assigned s).
  Proof.
    intros X x Hx.
    assert (G : forall y r, m' = bindv V y r m -> y = x \/ In x (map fst (m_env V m))).
    { intros y r ->. cbn [bindv m_env] in Hx. apply dset_fst in Hx. intuition. }
    destruct s; cbn [exec assigned] in *;
      repeat (match type of X with bind ?a _ = _ => destruct a eqn:?; cbn [bind] in X; [|discriminate] end).
    1-4: injection X as <-; destruct (G _ _ eq_refl); simpl; auto.
    - destruct exo; [|discriminate]. destruct (row V l i); [|discriminate]. injection X as <-; destruct (G _ _ eq_refl); simpl; auto.
    - injection X as <-; destruct (G _ _ eq_refl); simpl; auto.
    - destruct a0; try discriminate; match type of X with bind ?a _ = _ => destruct a; [|discriminate] end; injection X as <-; auto.
  Qed.
  Lemma foldM_env p : forall m m', foldM exec' m p = Ok m' -> forall x, In x (map fst (m_env V m')) ->
    In x (map fst (m_env V m)) \/ In x (flat_map assigned p).
  Proof.
    induction p as [|s p IH]; intros m m' F x Hx; simpl in F; [injection F as <-; auto|].
    destruct (exec' m s) eqn:E; [|discriminate]. cbn [bind] in F. destruct (IH _ _ F x Hx) as [H|H].
    - destruct (exec_env _ _ _ E x H); auto. right. simpl. apply in_or_app; auto.
    - right. simpl. apply in_or_app; auto.
  Qed.

  Lemma run_not_ok p state s : In s p ->
    (forall m, (forall x, In x (map fst (m_env V m)) -> In x (["self"; "t"; "state"; "dstate"] ++ flat_map assigned p)) ->
       forall r, exec' m s <> Ok r) ->
    forall r, run_trend V v_num v_add v_mul v_pow v_zero v_one disc attr exo p state <> Ok r.
  Proof.
    intros Hs F r. unfold run_trend. destruct (lmem _ _ _); [discriminate|].
    apply in_split in Hs as (l1 & l2 & ->).
    match goal with |- bind (foldM _ ?m _) _ <> _ => set (m0 := m) end.
    destruct (foldM exec' m0 (l1 ++ s :: l2)) eqn:E; [|discriminate]. exfalso. revert E. apply foldM_not_ok.
    exists l1, s, l2. split; auto. intros m F1. apply F. intros x Hx.
    destruct (foldM_env _ _ _ F1 x Hx) as [H|H]; [simpl in *; tauto|].
    apply in_or_app. right. rewrite flat_map_app. apply in_or_app; auto.
  Qed.

  (** a default compute_exogenous *)
  Lemma exogenous_fails enum eqs (S : pdes) p state : exo = None -> enum (s_exogenous S) <> [] -> trend_program enum S eqs = Ok p ->
    forall r, run_trend V v_num v_add v_mul v_pow v_zero v_one disc attr exo p state <> Ok r.
  Proof.
    intros X N P. unfold trend_program in P.
    destruct (pseudo_system enum S eqs); [|discriminate]. cbn [bind] in P.
    destruct (mapM (trend_line S) a); [|discriminate]. cbn [bind] in P.
    destruct (mapM diff_stmt _); [|discriminate]. cbn [bind] in P. injection P as <-.
    destruct (enum (s_exogenous S)) as [|f l] eqn:L; [contradiction|].
    apply run_not_ok with (s := ExogenousItem (function_keyvar f) 0).
    - rewrite !in_app_iff. do 4 right. left. simpl. auto.
    - intros m _ r E. cbn [exec] in E. rewrite X in E. destruct (object V m _ _); discriminate.
  Qed.

  Lemma store_fails p state x e : In (Store x e) p ->
    unreadable [] (["self"; "t"; "state"; "dstate"] ++ flat_map assigned p) e ->
    forall r, run_trend V v_num v_add v_mul v_pow v_zero v_one disc attr exo p state <> Ok r.
  Proof.
    intros Hs U. apply run_not_ok with (s := Store x e); auto. intros m B r E. cbn [exec] in E.
    destruct (eval' m e) eqn:Ee; [|discriminate]. eapply unreadable_fails; eauto.
  Qed.
End Stuck.

(** ** what the substitutions keep *)
Definition handled (constants : list sx) (old : sx) : Prop :=
  is_function old = true \/ is_derivative old = true \/ is_symbol old = true /\ In old constants.
Lemma subs_keeps constants bound old new e : handled constants old ->
  unreadable constants bound e -> unreadable constants bound (subs1 old new e).
Proof.
  intros Ho. assert (N : forall e, is_function e = false -> is_derivative e = false -> ~ In e constants -> e <> old).
  { intros e' F D C ->. destruct Ho as [H|[H|[_ H]]]; try congruence; auto. }
  assert (N' : forall e, is_function e = false -> is_derivative e = false -> is_symbol e = false -> e <> old).
  { intros e' F D C ->. destruct Ho as [H|[H|[H _]]]; congruence. }
  intros U. induction U as [k s N1 N2|b x H|a v|h l|l e He U IH|l e He U IH|b x U IH|b x U IH]; cbn [subs1];
    match goal with |- context [sx_eq_dec ?a ?b] => destruct (sx_eq_dec a b) as [E|_] end;
    try (exfalso; revert E; apply N'; reflexivity).
  - exfalso. revert E. apply N; auto.
  - apply un_symbol; auto.
  - apply un_root. destruct x; try discriminate. cbn [subs1]. destruct (sx_eq_dec (SNum q) old) as [E|_]; auto.
    exfalso. revert E. apply N'; reflexivity.
  - constructor.
  - constructor.
  - eapply un_add; [apply in_map; exact He|exact IH].
  - eapply un_mul; [apply in_map; exact He|exact IH].
  - apply un_base. exact IH.
  - apply un_exponent. exact IH.
Qed.
Lemma unreadable_weaken constants bound e : unreadable constants bound e -> unreadable [] bound e.
Proof. induction 1; [apply un_symbol; auto| | | |eapply un_add|eapply un_mul| |]; eauto using unreadable. Qed.

Section Keep.
  Variable enum : list sx -> list sx.
  Hypothesis E : forall l, Permutation (enum l) l.
  Variables (eqs : list equation) (S : pdes).
  Hypothesis B : pde_system enum eqs = Ok S.
  Variable bound : list string.
  Notation U := (unreadable (s_constants S) bound).

  Lemma functions_are f : In f (s_functions S) -> is_function f = true.
  Proof.
    intros H. destruct (functions_partition enum E eqs S B f) as ((X & _) & _). apply X in H as [H _].
    destruct H as [(g & l & ->)|(a & ->)]; reflexivity.
  Qed.
  Lemma derivatives_are d : In d (s_derivatives S) -> is_derivative d = true.
  Proof. intros H. apply (in_derivatives enum eqs S B) in H. apply H. Qed.
  Lemma constants_are c : In c (s_constants S) -> is_symbol c = true.
  Proof.
    unfold pde_system in B. destruct (get_prognostic enum eqs); [|discriminate]. cbn [bind] in B.
    destruct (get_constant enum _ _); [|discriminate]. cbn [bind] in B.
    destruct (get_spatial _); [|discriminate]. cbn [bind] in B. injection B as <-. cbn [s_constants].
    unfold get_constants, union_all. intros H. apply nodup_In, in_concat in H as (l & Hl & Hc).
    apply in_map_iff in Hl as (q & <- & Hq). unfold difference in Hc. rewrite !filter_In in Hc.
    destruct Hc as ((Hc & _) & _). unfold atoms in Hc. apply nodup_In, filter_In in Hc. apply Hc.
  Qed.

  Lemma derivatives_keep rhs rhs' : U rhs -> subs_derivatives enum S rhs = Ok rhs' -> U rhs'.
  Proof.
    unfold subs_derivatives. revert rhs. generalize (rev (seq 1 (s_max_order S))) as os.
    induction os as [|o os IH]; intros rhs H F; cbn [foldM] in F; [injection F as <-; auto|].
    match type of F with bind ?a _ = _ => destruct a as [r1|] eqn:E1; [|discriminate] end. cbn [bind] in F.
    apply (IH r1); auto. clear F IH. revert E1.
    assert (I : forall d, In d (enum (s_derivatives S)) -> is_derivative d = true).
    { intros d Hd. apply derivatives_are. eapply Permutation_in; [apply E|exact Hd]. }
    revert rhs H I. generalize (enum (s_derivatives S)) as ds. induction ds as [|d ds IH]; intros rhs H I E1; cbn [foldM] in E1.
    - injection E1 as <-; auto.
    - destruct (derivative_order d); [|discriminate]. cbn [bind] in E1. destruct (Nat.eqb a o).
      + destruct (derivative_keyvar d); [|discriminate]. cbn [bind] in E1. apply IH in E1; auto.
        * apply subs_keeps; auto. right; left. apply I. simpl; auto.
        * intros d' Hd'. apply I. simpl; auto.
      + cbn [bind] in E1. apply IH in E1; auto. intros d' Hd'. apply I. simpl; auto.
  Qed.
  Lemma fold_keep (n : sx -> sx) l rhs : (forall o, In o l -> handled (s_constants S) o) -> U rhs ->
    U (fold_left (fun rhs o => subs1 o (n o) rhs) l rhs).
  Proof.
    revert rhs. induction l as [|o l IH]; intros rhs H Hu; simpl; auto. apply IH; [intros; apply H; simpl; auto|].
    apply subs_keeps; auto. apply H. simpl; auto.
  Qed.
  Lemma pseudo_keep q q' : U (snd q) -> pseudo_equation enum S q = Ok q' -> fst q' = fst q /\ U (snd q').
  Proof.
    unfold pseudo_equation. intros H P. destruct (get_trend q); [|discriminate]. destruct (sx_eq_dec _ _); [|discriminate].
    destruct (subs_derivatives enum S (snd q)) eqn:D; [|discriminate]. cbn [bind] in P. injection P as <-. split; auto. cbn [snd].
    unfold subs_constants, subs_functions.
    apply (fold_keep (fun c => SSym ScalSym (constant_keyvar c))).
    { intros c Hc. apply (Permutation_in _ (E _)) in Hc. right; right. split; auto. apply constants_are; auto. }
    apply (fold_keep (fun f => SSym FunSym (function_keyvar f))).
    { intros f Hf. apply (Permutation_in _ (E _)) in Hf. left. apply functions_are; auto. }
    eapply derivatives_keep; eauto.
  Qed.

  Lemma mapM_in {X Y} (f : X -> res Y) l r x : mapM f l = Ok r -> In x l -> exists y, f x = Ok y /\ In y r.
  Proof.
    revert r. induction l as [|a l IH]; intros r M Hx; [contradiction|]. simpl in M.
    destruct (f a) eqn:F; [|discriminate]. cbn [bind] in M. destruct (mapM f l) eqn:M'; [|discriminate]. cbn [bind] in M.
    injection M as <-. destruct Hx as [->|Hx]; [eexists; split; [eauto|simpl; auto]|].
    destruct (IH _ eq_refl Hx) as (z & Fz & Hz). exists z. simpl; auto.
  Qed.
  Lemma program_store p q : trend_program enum S eqs = Ok p -> In q eqs -> U (snd q) ->
    exists x e, In (Store x e) p /\ U e.
  Proof.
    intros P Hq Hu. unfold trend_program in P.
    destruct (pseudo_system enum S eqs) as [ps|] eqn:Ep; [|discriminate]. cbn [bind] in P.
    destruct (mapM (trend_line S) ps) as [ls|] eqn:El; [|discriminate]. cbn [bind] in P.
    destruct (mapM diff_stmt _); [|discriminate]. cbn [bind] in P. injection P as <-.
    destruct (mapM_in _ _ _ _ Ep Hq) as (q' & Pq & Hq'). destruct (pseudo_keep _ _ Hu Pq) as [_ Hu'].
    destruct (mapM_in _ _ _ _ El Hq') as (st & Ps & Hs). unfold trend_line in Ps.
    destruct (fst q'); try discriminate. destruct (dgetE sx_eq_dec s _); [|discriminate]. injection Ps as <-.
    exists a0, (snd q'). split; auto. rewrite !in_app_iff. auto 10.
  Qed.
End Keep.

(** every name of the method *)
Lemma assigned_names enum (E : forall l, Permutation (enum l) l) (S : pdes) eqs p :
  trend_program enum S eqs = Ok p ->
  forall x, In x (flat_map assigned p) -> x = "exogenous" \/
    (exists f, In f (s_prognostic S) /\ (x = function_trend f \/ x = function_keyvar f)) \/
    (exists f, (In f (s_constant S) \/ In f (s_exogenous S)) /\ x = function_keyvar f) \/
    (exists c, In c (s_constants S) /\ x = constant_keyvar c) \/
    (exists d, In d (s_derivatives S) /\ derivative_keyvar d = Ok x).
Proof.
  intros P x Hx. unfold trend_program in P.
  destruct (pseudo_system enum S eqs) as [ps|] eqn:Ep; [|discriminate]. cbn [bind] in P.
  destruct (mapM (trend_line S) ps) as [ls|] eqn:El; [|discriminate]. cbn [bind] in P.
  destruct (mapM diff_stmt _) as [ds|] eqn:Ed; [|discriminate]. cbn [bind] in P. injection P as <-.
  rewrite !flat_map_app, !in_app_iff in Hx. destruct Hx as [H|[H|[H|[H|[H|[H|H]]]]]].
  - apply in_flat_map in H as (st & Hst & H). apply in_map_iff in Hst as ([i f] & <- & Hp). destruct H as [<-|[]].
    apply in_number in Hp as [_ Hp]. apply nth_error_In in Hp. right; left. exists f. auto.
  - apply in_flat_map in H as (st & Hst & H). apply in_map_iff in Hst as ([i f] & <- & Hp). destruct H as [<-|[]].
    apply in_number in Hp as [_ Hp]. apply nth_error_In in Hp. right; left. exists f. auto.
  - apply in_flat_map in H as (st & Hst & H). apply in_map_iff in Hst as (f & <- & Hp). destruct H as [<-|[]].
    apply (Permutation_in _ (E _)) in Hp. do 2 right; left. exists f. auto.
  - apply in_flat_map in H as (st & Hst & H). apply in_map_iff in Hst as (f & <- & Hp). destruct H as [<-|[]].
    apply (Permutation_in _ (E _)) in Hp. do 3 right; left. exists f. auto.
  - destruct (enum (s_exogenous S)) as [|f0 l0] eqn:L; [contradiction|]. simpl flat_map in H. destruct H as [<-|H]; auto.
    change (In x (flat_map assigned (map (fun p => ExogenousItem (function_keyvar (snd p)) (fst p)) (number 0 (f0 :: l0))))) in H.
    rewrite <- L in H.
    apply in_flat_map in H as (st & Hst & H). apply in_map_iff in Hst as ([i f] & <- & Hp). destruct H as [<-|[]].
    apply in_number in Hp as [_ Hp]. apply nth_error_In in Hp. apply (Permutation_in _ (E _)) in Hp.
    do 2 right; left. exists f. auto.
  - do 4 right. apply in_flat_map in H as (st & Hst & H).
    assert (G : forall l r, mapM diff_stmt l = Ok r -> In st r -> exists d, In d l /\ diff_stmt d = Ok st).
    { clear. induction l as [|a l IH]; intros r M Hr; simpl in M; [injection M as <-; contradiction|].
      destruct (diff_stmt a) eqn:F; [|discriminate]. cbn [bind] in M. destruct (mapM _ l) eqn:M'; [|discriminate].
      injection M as <-. destruct Hr as [->|Hr]; [exists a; simpl; auto|]. destruct (IH _ eq_refl Hr) as (d & Hd & Fd). exists d. simpl; auto. }
    destruct (G _ _ Ed Hst) as (d & Hd & Fd). exists d. split; [eapply Permutation_in; [apply E|exact Hd]|].
    unfold diff_stmt, derivative_keyvar in *. destruct d; try discriminate. destruct (partial_orders vars); [|discriminate].
    cbn [bind] in *. injection Fd as <-. destruct H as [<-|[]]. reflexivity.
  - exfalso. apply in_flat_map in H as (st & Hst & H).
    revert Hst H. clear - El. revert ls El. induction ps as [|q ps IH]; intros ls M Hr H; simpl in M; [injection M as <-; contradiction|].
    destruct (trend_line S q) eqn:F; [|discriminate]. cbn [bind] in M. destruct (mapM _ ps) eqn:M'; [|discriminate].
    injection M as <-. destruct Hr as [->|Hr]; [|eapply IH; eauto].
    unfold trend_line in F. destruct (fst q); try discriminate. destruct (dgetE _ _ _); [|discriminate]. injection F as <-. contradiction.
Qed.

(** ** prognostic equations *)
Lemma is_trend_iff d : is_trend d = true <-> time_derivative d.
Proof.
  unfold time_derivative. split.
  - destruct d; try discriminate. destruct vars as [|[c n] v]; [discriminate|]. simpl. intros H.
    apply andb_true_iff in H as [H1 H2]. apply String.eqb_eq in H1 as ->. apply Nat.eqb_eq in H2 as ->. eauto.
  - intros (g & v & ->). reflexivity.
Qed.
Lemma filter_all {X} p (l : list X) x : filter p l = [x] -> forall y, In y l -> p y = true -> y = x.
Proof.
  intros F y Hy Py. assert (In y (filter p l)) by (apply filter_In; auto). rewrite F in H. destruct H as [->|[]]; auto.
Qed.
Lemma trend_lhs q : get_trend q = inl (fst q) <-> prognostic_equation q.
Proof.
  unfold get_trend, prognostic_equation. split.
  - destruct (filter is_trend (eq_atoms is_derivative q)) as [|d [|]] eqn:F; try discriminate. intros H. injection H as ->.
    split.
    + apply is_trend_iff. assert (I : In (fst q) (filter is_trend (eq_atoms is_derivative q))) by (rewrite F; simpl; auto).
      apply filter_In in I. apply I.
    + intros d Hd T. apply (filter_all _ _ _ F); [|apply is_trend_iff; auto]. unfold eq_atoms. apply nodup_In, filter_In.
      split; auto. destruct T as (g & v & ->). reflexivity.
  - intros [T U]. assert (I : In (fst q) (filter is_trend (eq_atoms is_derivative q))).
    { apply filter_In. split; [|apply is_trend_iff; auto]. apply nodup_In, filter_In. split.
      - apply in_or_app. left. destruct T as (g & v & ->). simpl. auto.
      - destruct T as (g & v & ->). reflexivity. }
    assert (N : NoDup (filter is_trend (eq_atoms is_derivative q))) by (apply NoDup_filter, NoDup_nodup).
    assert (A : forall d, In d (filter is_trend (eq_atoms is_derivative q)) -> d = fst q).
    { intros d Hd. apply filter_In in Hd as [Hd Td]. apply U; [|apply is_trend_iff; auto]. apply nodup_In, filter_In in Hd. apply Hd. }
    destruct (filter is_trend _) as [|a [|b l]]; [contradiction| |].
    + f_equal. apply A. simpl; auto.
    + exfalso. inversion N; subst. apply H1. rewrite (A a), (A b) by (simpl; auto). simpl; auto.
Qed.
Lemma trend_not_lhs enum S q : ~ prognostic_equation q -> pseudo_equation enum S q = Err ValueError.
Proof.
  intros N. unfold pseudo_equation. destruct (get_trend q) eqn:G; [|reflexivity]. destruct (sx_eq_dec (fst q) s) as [E|_]; [|reflexivity].
  exfalso. apply N, trend_lhs. congruence.
Qed.
Lemma pseudo_lhs enum S eqs ps : pseudo_system enum S eqs = Ok ps ->
  map fst ps = map fst eqs /\ forall q, In q eqs -> prognostic_equation q.
Proof.
  revert ps. unfold pseudo_system. induction eqs as [|q eqs IH]; intros ps P; simpl in P.
  - injection P as <-. split; [reflexivity|intros ? []].
  - destruct (pseudo_equation enum S q) as [q'|] eqn:Q; [|discriminate]. cbn [bind] in P.
    destruct (mapM _ eqs) eqn:M; [|discriminate]. cbn [bind] in P. injection P as <-. destruct (IH _ eq_refl) as [I1 I2].
    unfold pseudo_equation in Q. destruct (get_trend q) as [d|] eqn:G; [|discriminate].
    destruct (sx_eq_dec (fst q) d) as [Ed|]; [|discriminate]. destruct (subs_derivatives _ _ _); [|discriminate].
    injection Q as <-. simpl. rewrite I1. split; auto. intros q0 [<-|H]; auto. apply trend_lhs. congruence.
Qed.
Lemma pseudo_first enum S e1 q e2 : (forall q', In q' e1 -> exists r, pseudo_equation enum S q' = Ok r) ->
  ~ prognostic_equation q -> pseudo_system enum S (e1 ++ q :: e2) = Err ValueError.
Proof.
  intros H N. unfold pseudo_system. induction e1 as [|a e1 IH]; simpl.
  - rewrite (trend_not_lhs enum S q N). reflexivity.
  - destruct (H a) as [r ->]; [simpl; auto|]. cbn [bind]. rewrite IH; auto. intros q' Hq'. apply H. simpl; auto.
Qed.
Lemma pseudo_no_functions cs e : flat cs e -> forall y, In y (subterms (lmap code_leaf e)) -> is_function y = false /\ is_derivative y = false.
Proof.
  induction e as [q|k s|f l IH|e IH|e v IH|e l IH IH2|l IH|l IH|b x IHb IHx|h l IH] using sx_ind'; intros F y Hy;
    inversion F; subst; cbn [lmap code_leaf] in Hy; simpl in Hy; try (destruct Hy as [<-|[]]; auto; fail).
  - destruct Hy as [<-|Hy]; [auto|]. apply in_flat_map in Hy as (z & Hz & Hy). apply in_map_iff in Hz as (w & <- & Hw).
    rewrite Forall_forall in *. eapply IH; eauto.
  - destruct Hy as [<-|Hy]; [auto|]. apply in_flat_map in Hy as (z & Hz & Hy). apply in_map_iff in Hz as (w & <- & Hw).
    rewrite Forall_forall in *. eapply IH; eauto.
  - destruct Hy as [<-|Hy]; [auto|]. apply in_app_iff in Hy as [Hy|Hy]; eauto.
Qed.
