(** The property subs_tree of the objects SymbolicPKF. *)
From Coq Require Import List Arith ZArith QArith Qcanon Ring Bool String Permutation Lia.
From Verif Require Import PyBase PyBaseFacts PartialOrderModel TreeModel TreeSpec TreeProofs TreeProps Reynolds PKFModel PKFSpec PKFTimeSpec PKFAlg PKFAtoms
  PKFClosure PKFProofs PKFInv PKFShape PKFWords PKFNormal PKFMain PKFObjModel PKFObjSpec PKFObjProofs PKFObjMain SubsTreeModel SubsTreeSpec.
Import ListNotations.
Close Scope Q_scope.
Close Scope Qc_scope.
Close Scope Z_scope.
Open Scope nat_scope.
Open Scope string_scope.
Open Scope list_scope.

(** *** effects of the computations on the trees *)
Section Keeps.
  Variable R : pstate -> pstate -> Prop.
  Hypothesis R_refl : forall s, R s s.
  Hypothesis R_trans : forall a b c, R a b -> R b c -> R a c.
  Definition keeps {A} (m : M A) : Prop := forall s, R s (snd (m s)).
  Lemma keeps_ret {A} (a : A) : keeps (ret a). Proof. intros s. apply R_refl. Qed.
  Lemma keeps_lift {A} (a : res A) : keeps (lift a). Proof. intros s. apply R_refl. Qed.
  Lemma keeps_raise {A} e : keeps (raise e : M A). Proof. intros s. apply R_refl. Qed.
  Lemma keeps_bind {A B} (m : M A) (k : A -> M B) : keeps m -> (forall a, keeps (k a)) -> keeps (bindM m k).
  Proof.
    intros Hm Hk s. unfold bindM. specialize (Hm s). destruct (m s) as [[a|e] s']; cbn [snd] in *; [|exact Hm].
    eapply R_trans; [exact Hm|apply Hk].
  Qed.
  Lemma keeps_store f : (forall s, R s (f s)) -> keeps (store f). Proof. intros H s. apply H. Qed.
  Lemma keeps_memo {A} get set (m : M A) : (forall v s, R s (set v s)) -> keeps m -> keeps (memo get set m).
  Proof.
    intros Hs Hm s. unfold memo. destruct (get s); [apply R_refl|]. specialize (Hm s). destruct (m s) as [[a|e] s']; cbn [snd] in *; [|exact Hm].
    eapply R_trans; [exact Hm|apply Hs].
  Qed.
  Lemma keeps_mapS {A B} (f : A -> M B) l : (forall a, keeps (f a)) -> keeps (mapS f l).
  Proof. intros H. induction l as [|a l IH]; [apply keeps_ret|]. apply keeps_bind; [apply H|]. intros b. apply keeps_bind; [exact IH|]. intros bs. apply keeps_ret. Qed.
  Lemma keeps_foldS {A B} (f : B -> A -> M B) l : (forall b a, keeps (f b a)) -> forall b, keeps (foldS f b l).
  Proof. intros H. induction l as [|a l IH]; intros b; [apply keeps_ret|]. apply keeps_bind; [apply H|]. exact IH. Qed.
End Keeps.

Definition tree_at (s : pstate) (i : nat) : tree := f_tree (nth i (s_fields s) f_init).
Definition grows (s s' : pstate) : Prop := forall i, t_degree (tree_at s i) <= t_degree (tree_at s' i).
Definition same_trees (s s' : pstate) : Prop := List.length (s_fields s) = List.length (s_fields s') /\ forall i, tree_at s i = tree_at s' i.
Lemma grows_refl s : grows s s. Proof. intros i. lia. Qed.
Lemma grows_trans a b c : grows a b -> grows b c -> grows a c. Proof. intros H1 H2 i. specialize (H1 i). specialize (H2 i). lia. Qed.
Lemma trees_refl s : same_trees s s. Proof. split; auto. Qed.
Lemma trees_trans a b c : same_trees a b -> same_trees b c -> same_trees a c.
Proof. intros [H1 H2] [H3 H4]. split; [congruence|]. intros i. rewrite H2. apply H4. Qed.
Lemma same_grows s s' : same_trees s s' -> grows s s'. Proof. intros [_ H] i. rewrite H. lia. Qed.
Lemma tree_at_set s i f j : tree_at (set_field i f s) j = if Nat.eqb i j then (if Nat.ltb i (List.length (s_fields s)) then f_tree f else tree_at s j) else tree_at s j.
Proof. unfold tree_at. cbn [set_field s_fields]. rewrite nth_set_nth. destruct (Nat.eqb i j); [|reflexivity]. destruct (Nat.ltb _ _); reflexivity. Qed.
Lemma trees_set s i f : f_tree f = tree_at s i -> same_trees s (set_field i f s).
Proof.
  intros H. split; [cbn; symmetry; apply set_nth_length|]. intros j. rewrite tree_at_set. destruct (Nat.eqb_spec i j) as [<-|]; [|reflexivity]. destruct (Nat.ltb _ _); auto.
Qed.
Lemma grows_set s i f : t_degree (tree_at s i) <= t_degree (f_tree f) -> grows s (set_field i f s).
Proof. intros H j. rewrite tree_at_set. destruct (Nat.eqb_spec i j) as [<-|]; [|lia]. destruct (Nat.ltb _ _); lia. Qed.

Lemma add_levels_degree enum enumD ss coords n : forall st, t_degree st <= t_degree (snd (add_levels enum enumD ss coords n st)).
Proof.
  induction n as [|n IH]; intros st; cbn [add_levels]; [cbn; lia|].
  assert (H : t_degree (snd (add_level enum enumD ss coords st)) = S (t_degree st)).
  { unfold add_level. destruct (foldM _ _ _) as [[tr lv]|e]; reflexivity. }
  destruct (add_level enum enumD ss coords st) as [[u|e] st']; cbn [snd] in *; [specialize (IH st'); lia|lia].
Qed.
Lemma tree_call_degree enum enumD ss coords st d : t_degree st <= t_degree (snd (tree_call enum enumD ss coords st d)).
Proof.
  unfold tree_call. set (k := match d with None => _ | Some d => d end). pose proof (add_levels_degree enum enumD ss coords (k - t_degree st) st) as H.
  destruct (add_levels enum enumD ss coords (k - t_degree st) st) as [[u|e] st']; exact H.
Qed.
Lemma tree_call_now enum enumD ss coords st : snd (tree_call enum enumD ss coords st None) = st.
Proof. unfold tree_call. rewrite Nat.sub_diag. reflexivity. Qed.

Section Effects.
  Variables (enum : list mi -> list mi) (enumD : tdict -> tdict) (enumC : edict -> edict)
            (enumF : list (fn * poly) -> list (fn * poly)) (enumU : list fn -> list fn).
  Variables (coords : list string) (eqs : list poly).

  Ltac same := intros; split; [reflexivity|intros; reflexivity].
  Lemma internal_trees : keeps same_trees (m_internal enum coords eqs).
  Proof.
    intros s. unfold m_internal. destruct (s_internal s); [apply trees_refl|].
    set (m := bindM (store (set_internal [])) _). assert (K : keeps same_trees m); [|apply (K s)]. unfold m.
    repeat first [ apply (keeps_bind same_trees trees_trans); [|intros ?] | apply (keeps_mapS same_trees trees_refl trees_trans); intros ?
                 | apply keeps_store; same ].
    - intros s'. unfold m_field_closure. destruct (f_closure _); [apply trees_refl|]. destruct (field_closure enum coords _); [|apply trees_refl].
      cbn [snd]. apply trees_set. reflexivity.
    - match goal with |- keeps _ (let '(_, _) := ?p in _) => destruct p end.
      apply (keeps_bind same_trees trees_trans); [|intros ?]; apply keeps_store; same.
  Qed.
  Lemma now_trees i : keeps same_trees (m_tree_now enum enumD coords i).
  Proof.
    intros s. unfold m_tree_now. pose proof (tree_call_now enum enumD true coords (f_tree (nth i (s_fields s) f_init))) as E.
    destruct (tree_call _ _ _ _ _ _) as [r t]. cbn [snd] in *. apply trees_set. exact E.
  Qed.
  Lemma closed_now_trees i : keeps same_trees (m_closed_now enum enumD enumC coords eqs i).
  Proof.
    apply (keeps_bind same_trees trees_trans); [apply now_trees|]. intros d. apply (keeps_mapS same_trees trees_refl trees_trans). intros kv.
    apply (keeps_bind same_trees trees_trans); [apply internal_trees|]. intros cl. apply (keeps_ret same_trees trees_refl).
  Qed.

  (** *** the degrees never decrease *)
  Notation K := (keeps grows).
  Lemma Kret {A} (a : A) : K (ret a). Proof. apply (keeps_ret grows grows_refl). Qed.
  Lemma Klift {A} (a : res A) : K (lift a). Proof. apply (keeps_lift grows grows_refl). Qed.
  Lemma Kraise {A} e : K (raise e : M A). Proof. apply (keeps_raise grows grows_refl). Qed.
  Lemma Kbind {A B} (m : M A) (k : A -> M B) : K m -> (forall a, K (k a)) -> K (bindM m k). Proof. apply (keeps_bind grows grows_trans). Qed.
  Lemma KmapS {A B} (f : A -> M B) l : (forall a, K (f a)) -> K (mapS f l). Proof. apply (keeps_mapS grows grows_refl grows_trans). Qed.
  Lemma KfoldS {A B} (f : B -> A -> M B) l : (forall b a, K (f b a)) -> forall b, K (foldS f b l). Proof. apply (keeps_foldS grows grows_refl grows_trans). Qed.
  Lemma Kmemo {A} get set (m : M A) : (forall v s, grows s (set v s)) -> K m -> K (memo get set m). Proof. apply (keeps_memo grows grows_refl grows_trans). Qed.
  Lemma Kinternal : K (m_internal enum coords eqs). Proof. intros s. apply same_grows, internal_trees. Qed.
  Lemma Ktree i k : K (m_tree enum enumD coords i k).
  Proof.
    intros s. unfold m_tree. pose proof (tree_call_degree enum enumD true coords (f_tree (nth i (s_fields s) f_init)) (Some k)) as E.
    destruct (tree_call _ _ _ _ _ _) as [r t]. cbn [snd] in *. apply grows_set. exact E.
  Qed.
  Ltac grow := intros ? ? ?; apply Nat.le_refl.
  Ltac k := repeat match goal with
    | |- keeps _ (ret _) => apply Kret
    | |- keeps _ (lift _) => apply Klift
    | |- keeps _ (raise _) => apply Kraise
    | |- keeps _ (m_internal _ _ _) => apply Kinternal
    | |- keeps _ (m_tree _ _ _ _ _) => apply Ktree
    | |- keeps _ (bindM _ _) => apply Kbind; [|intros ?]
    | |- keeps _ (mapS _ _) => apply KmapS; intros ?
    | |- keeps _ (foldS _ _ _) => apply KfoldS; intros ? ?
    | |- keeps _ (memo _ _ _) => apply Kmemo; [grow|]
    end.
  Lemma Kfirst : K (m_first enumF eqs). Proof. unfold m_first, m_reynolds. k. Qed.
  Lemma Ksecond : K (m_second enumF eqs). Proof. unfold m_second, m_reynolds. k. Qed.
  Lemma Kexpectation : K (m_expectation enum enumC enumF coords eqs). Proof. unfold m_expectation. k; try apply Ksecond. Qed.
  Lemma Ktl : K (m_tl enum enumC enumF coords eqs). Proof. unfold m_tl. k; try apply Kfirst. Qed.
  Lemma Kerror : K (m_error enum enumC enumF coords eqs). Proof. unfold m_error. k; try apply Kfirst; try apply Ktl. Qed.
  Lemma Kapply p : K (m_apply enum enumD enumC enumU coords eqs p).
  Proof. unfold m_apply. destruct (existsb _ _); k. destruct (field_of eqs _); unfold m_closed_tree; k. Qed.
  Lemma Kvariance : K (m_variance enum enumD enumC enumF enumU coords eqs).
  Proof. unfold m_variance. k; try apply Kerror; try apply Kapply. Qed.
  Lemma Kepsilon : K (m_epsilon enum enumD enumC enumF enumU coords eqs).
  Proof. unfold m_epsilon. k; try apply Kerror; try apply Kvariance. Qed.
  Lemma Kcovariance : K (m_covariance enum enumD enumC enumF enumU coords eqs).
  Proof.
    intros s. unfold m_covariance. destruct (s_covariance s); [apply grows_refl|]. destruct (Nat.eqb _ _); [apply grows_refl|].
    set (m := bindM (m_error _ _ _ _ _) _). assert (H : K m); [|apply (H s)]. unfold m. k; try apply Kerror.
    - apply keeps_store. intros s' ?. apply Nat.le_refl.
    - match goal with |- keeps _ (let '(_, _) := ?p in _) => destruct p end. k; try apply Kapply. apply keeps_store. intros s' ?. apply Nat.le_refl.
    - intros s'. apply grows_refl.
  Qed.
  Lemma Kmetric : K (m_metric enum enumD enumC enumF enumU coords eqs).
  Proof.
    unfold m_metric. k; try apply Kepsilon. match goal with |- keeps _ (let '(_, _) := ?p in _) => destruct p as [? [? ?]] end. k; try apply Kapply.
  Qed.
  Lemma Kin_metric closure : K (m_in_metric enum enumD enumC enumF enumU coords eqs closure).
  Proof. unfold m_in_metric. k; try apply Kexpectation; try apply Kvariance; try apply Kcovariance; try apply Kmetric. Qed.
  Lemma Kin_tensor closure get set tensor inv scale factor b : (forall v s, grows s (set v s)) ->
    K (m_in_tensor enum enumD enumC enumF enumU coords eqs closure get set tensor inv scale factor b).
  Proof.
    intros H. unfold m_in_tensor. apply Kmemo; [exact H|]. k; try apply Kmetric; try apply Kexpectation; try apply Kvariance. destruct b; [apply Kcovariance|apply Kret].
  Qed.
  Lemma Kas {A} (f : A -> answer) (m : M A) s : K m -> grows s (snd (as_system f (m s))).
  Proof. intros H. apply (H s). Qed.
  Lemma Kask closure q s : grows s (snd (ask enum enumD enumC enumF enumU coords eqs closure q s)).
  Proof.
    destruct q; cbn [ask]; try (apply Kas).
    - apply Kfirst. - apply Ksecond. - apply Kexpectation. - apply Ktl. - apply Kerror. - apply Kvariance. - apply Kepsilon.
    - apply Kcovariance. - apply Kmetric. - apply Kin_metric. - apply Kin_tensor. grow. - apply Kin_tensor. grow.
    - apply Kinternal. - unfold m_unclosed. k; try apply Kin_metric. - apply grows_refl.
  Qed.
End Effects.
