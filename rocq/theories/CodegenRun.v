(** The generated trend computes the right-hand sides. *)
From Coq Require Import List Arith Bool String QArith Permutation Lia Sorted.
From Verif Require Import PyBase PyBaseFacts SymModel RandomModel RandomProofs PDEModel PDESpec PDEProofs StrModel CodegenModel CodegenSpec CodegenProofs.
Import ListNotations.
Close Scope Q_scope.
Open Scope nat_scope.
Open Scope string_scope.
Open Scope list_scope.

Lemma all_equal {A} (a : A) l : NoDup l -> In a l -> (forall x, In x l -> x = a) -> l = [a].
Proof.
  intros N I H. destruct l as [|x l]; [contradiction|]. rewrite (H x) by (simpl; auto). f_equal.
  destruct l as [|y l]; auto. exfalso. inversion N; subst. apply H2.
  rewrite (H x), <- (H y) by (simpl; auto). simpl; auto.
Qed.

Section Program.
  Variable enum : list sx -> list sx.
  Hypothesis E : forall l, Permutation (enum l) l.
  Variables (eqs : list equation) (S : pdes).
  Hypothesis B : pde_system enum eqs = Ok S.
  Hypothesis T : translatable S eqs.

  Lemma zipped : Forall2 (fun f q => fst q = SDer f [("t", 1)]) (s_prognostic S) eqs.
  Proof.
    pose proof (t_lhs _ _ T) as H. revert H. generalize (s_prognostic S). generalize eqs.
    induction eqs0 as [|q l IH]; intros [|f p] H; try discriminate; constructor; simpl in H; injection H; auto.
  Qed.
  Lemma zipped_in q : In q eqs -> exists f, In f (s_prognostic S) /\ fst q = SDer f [("t", 1)].
  Proof.
    pose proof zipped as Z. clear B T. induction Z as [|f q' p l H _ IH]; [intros []|]. intros [->|Hq]; [exists f; simpl; auto|].
    destruct (IH Hq) as (g & Hg & Eg). exists g. simpl; auto.
  Qed.

  Lemma trend_unique q : In q eqs -> get_trend q = inl (fst q).
  Proof.
    intros Hq. unfold get_trend. destruct (zipped_in q Hq) as (f & Hf & Ef).
    rewrite (all_equal (fst q) (filter is_trend (eq_atoms is_derivative q))); auto.
    - apply NoDup_filter, NoDup_nodup.
    - apply filter_In. split; [|rewrite Ef; reflexivity]. apply in_eq_atoms. split; [rewrite Ef; reflexivity|].
      left. destruct (fst q); simpl; auto.
    - intros d Hd. apply filter_In in Hd as [Hd Td]. apply in_eq_atoms in Hd as [D [Hd|Hd]].
      + rewrite Ef in Hd |- *. destruct (t_fun _ _ T f Hf) as (g & l & -> & SA). simpl in Hd.
        destruct Hd as [<-|[<-|Hd]]; [reflexivity|discriminate|]. exfalso. apply in_app_or in Hd as [Hd|[<-|[]]]; [|discriminate].
        apply SA in Hd. destruct Hd as [_ Hd]. congruence.
      + exfalso. assert (Dd : In d (s_derivatives S)) by (eapply in_derivatives; eauto).
        destruct (nice_derivative _ _ _ B T d Dd) as (g & l & v & -> & _ & _ & _ & Nt & _).
        destruct v as [|[c n] v]; [discriminate|]. simpl in Td, Nt.
        apply andb_true_iff in Td as [Td _]. apply String.eqb_eq in Td. tauto.
  Qed.

  Lemma pseudo_ok : pseudo_system enum S eqs = Ok (map (fun q => (fst q, lmap code_leaf (snd q))) eqs).
  Proof.
    unfold pseudo_system. apply mapM_Ok. intros q Hq. unfold pseudo_equation. rewrite (trend_unique q Hq).
    destruct (sx_eq_dec (fst q) (fst q)); [|contradiction].
    destruct (pseudo_rhs enum E eqs S B T q Hq) as (d & -> & H). cbn [bind]. rewrite H. reflexivity.
  Qed.

  Lemma subs_trend_get f : In f (s_prognostic S) -> dgetE sx_eq_dec f (subs_trend S) = Ok (function_trend f).
  Proof.
    unfold subs_trend, dgetE. intros H.
    assert (G : forall l d, (forall g t, dget sx_eq_dec g d = Some t -> t = function_trend g) ->
       (In f l \/ exists t, dget sx_eq_dec f d = Some t) ->
       dget sx_eq_dec f (fold_left (fun d f => dset sx_eq_dec f (function_trend f) d) l d) = Some (function_trend f)).
    { induction l as [|g l IH]; intros d D Hf; cbn [fold_left].
      - destruct Hf as [[]|(t & Ht)]. rewrite Ht, (D _ _ Ht). reflexivity.
      - apply IH.
        + intros g' t. rewrite dget_dset. destruct (sx_eq_dec g' g) as [->|]; [congruence|apply D].
        + rewrite dget_dset. destruct (sx_eq_dec f g) as [->|N]; [right; eauto|].
          destruct Hf as [[->|Hf]|Hf]; [contradiction|left; auto|right; auto]. }
    rewrite G; auto. intros g t. discriminate.
  Qed.

  Definition line (p : sx * equation) : stmt := Store (function_trend (fst p)) (lmap code_leaf (snd (snd p))).
  Lemma lines_ok : mapM (trend_line S) (map (fun q => (fst q, lmap code_leaf (snd q))) eqs) =
    Ok (map line (combine (s_prognostic S) eqs)).
  Proof.
    assert (I : incl (s_prognostic S) (s_prognostic S)) by apply incl_refl.
    pose proof zipped as Z. revert I Z. generalize (s_prognostic S) at 1 3 4. clear B T. revert eqs.
    intros l p. revert l. induction p as [|f p IH]; intros l I Z; inversion Z as [|? q ? l' H Z']; subst; auto.
    cbn [map mapM combine]. unfold trend_line at 1. cbn [fst snd]. rewrite H.
    rewrite subs_trend_get by (apply I; simpl; auto). cbn [bind]. rewrite IH; auto.
    intros x Hx. apply I. simpl; auto.
  Qed.

  Definition dstmt (d : sx) : stmt :=
    match d with SDer g v => Diff (dname d) (function_keyvar g) v | _ => CallExogenous end.
  Lemma diffs_ok : mapM diff_stmt (enum (s_derivatives S)) = Ok (map dstmt (enum (s_derivatives S))).
  Proof.
    apply mapM_Ok. intros d Hd. assert (Hd' : In d (s_derivatives S)) by (eapply Permutation_in; [apply E|exact Hd]).
    destruct (nice_derivative _ _ _ B T d Hd') as (f & l & v & -> & _). simpl.
    rewrite (proj1 (partial_orders_nice _ _ _ B T _ _ _ Hd')). reflexivity.
  Qed.

  Definition exo_part : list stmt :=
    match enum (s_exogenous S) with
    | [] => []
    | l => CallExogenous :: map (fun p => ExogenousItem (function_keyvar (snd p)) (fst p)) (number 0 l)
    end.
  Definition program : list stmt :=
    map (fun p => AliasD (function_trend (snd p)) (fst p)) (number 0 (s_prognostic S)) ++
    map (fun p => AliasS (function_keyvar (snd p)) (fst p)) (number 0 (s_prognostic S)) ++
    map (fun f => Attr (function_keyvar f) (function_keyvar f)) (enum (s_constant S)) ++
    map (fun c => Attr (constant_keyvar c) (constant_keyvar c)) (enum (s_constants S)) ++
    exo_part ++ map dstmt (enum (s_derivatives S)) ++ map line (combine (s_prognostic S) eqs).
  Lemma program_ok : trend_program enum S eqs = Ok program.
  Proof. unfold trend_program. rewrite pseudo_ok. cbn [bind]. rewrite lines_ok. cbn [bind]. rewrite diffs_ok. reflexivity. Qed.
End Program.

(** ** running *)
Section Put.
  Variable V : Type.
  Notation mem' := (mem V). Notation ref' := (ref V).
  Definition put (bs : list (string * ref')) (m : mem') : mem' :=
    fold_left (fun m b => bindv V (fst b) (snd b) m) bs m.
  Lemma put_app a b m : put (a ++ b) m = put b (put a m).
  Proof. apply fold_left_app. Qed.
  Lemma put_d bs m : m_d V (put bs m) = m_d V m.
  Proof. unfold put. revert m. induction bs; intros; simpl; auto. rewrite IHbs. reflexivity. Qed.
  Lemma put_s bs m : m_s V (put bs m) = m_s V m.
  Proof. unfold put. revert m. induction bs; intros; simpl; auto. rewrite IHbs. reflexivity. Qed.
  Lemma put_other bs m x : ~ In x (map fst bs) -> dget string_dec x (m_env V (put bs m)) = dget string_dec x (m_env V m).
  Proof.
    unfold put. revert m. induction bs as [|[y r] bs IH]; intros m N; simpl; auto. rewrite IH by (simpl in N; tauto).
    cbn [bindv m_env fst snd]. apply dget_dset_other. simpl in N. tauto.
  Qed.
  Lemma put_in bs m x r : NoDup (map fst bs) -> In (x, r) bs -> dget string_dec x (m_env V (put bs m)) = Some r.
  Proof.
    revert m. induction bs as [|[y r'] bs IH]; intros m N H; [contradiction|]. inversion N; subst.
    change (put ((y, r') :: bs) m) with (put bs (bindv V y r' m)). destruct H as [H|H].
    - injection H as -> ->. rewrite put_other by auto. cbn [bindv m_env]. apply dget_dset_same.
    - apply IH; auto.
  Qed.

  Lemma Forall2_map2 {X Y Z} (R : Y -> Z -> Prop) (f : X -> Y) (g : X -> Z) l :
    (forall x, In x l -> R (f x) (g x)) -> Forall2 R (map f l) (map g l).
  Proof. induction l; simpl; constructor; auto. Qed.
  Lemma in_number {X} (l : list X) : forall k i x, In (i, x) (number k l) <-> k <= i /\ nth_error l (i - k) = Some x.
  Proof.
    induction l as [|a l IH]; intros k i x; simpl.
    - split; [tauto|]. intros [_ H]. destruct (i - k); discriminate.
    - rewrite IH. split.
      + intros [H|[H1 H2]].
        * injection H as -> ->. rewrite Nat.sub_diag. auto.
        * split; [lia|]. replace (i - k) with (Datatypes.S (i - Datatypes.S k)) by lia. exact H2.
      + intros [H1 H2]. destruct (Nat.eq_dec i k) as [->|N].
        * rewrite Nat.sub_diag in H2. injection H2 as ->. auto.
        * right. split; [lia|]. replace (i - k) with (Datatypes.S (i - Datatypes.S k)) in H2 by lia. exact H2.
  Qed.
  Lemma map_snd_number {X} (l : list X) k : map snd (number k l) = l.
  Proof. revert k. induction l; intros; simpl; f_equal; auto. Qed.

End Put.

Section Running.
  Variable V : Type.
  Variables (v_num : Q -> V) (v_add v_mul v_pow : V -> V -> V) (v_zero v_one : V).
  Variable disc : list (string * nat) -> V -> res V.
  Variable attr : string -> res V.
  Variable exo : option (list V).
  Notation exec' := (exec V v_num v_add v_mul v_pow v_zero v_one disc attr exo).
  Notation eval' := (eval V v_num v_add v_mul v_pow v_zero v_one).
  Notation mem' := (mem V). Notation ref' := (ref V).

  Definition agree (K : list string) (m m' : mem') : Prop :=
    (forall x, In x K -> dget string_dec x (m_env V m') = dget string_dec x (m_env V m)) /\
    m_d V m' = m_d V m /\ m_s V m' = m_s V m.
  Lemma agree_refl K m : agree K m m.
  Proof. repeat split. Qed.
  Lemma segment K m ss bs : Forall2 (fun s b => forall m', agree K m m' -> exec' m' s = Ok (bindv V (fst b) (snd b) m')) ss bs ->
    (forall x, In x (map fst bs) -> ~ In x K) ->
    foldM exec' m ss = Ok (put V bs m).
  Proof.
    intros F D. assert (G : forall m', agree K m m' -> foldM exec' m' ss = Ok (put V bs m')); [|apply G, agree_refl].
    induction F as [|s b ss bs H _ IH]; intros m' A; auto. cbn [foldM]. rewrite (H m' A). cbn [bind].
    change (put V (b :: bs) m') with (put V bs (bindv V (fst b) (snd b) m')). apply IH.
    - intros x Hx. apply D. simpl; auto.
    - destruct A as (A1 & A2 & A3). repeat split; auto. intros x Hx. cbn [bindv m_env]. rewrite dget_dset_other; auto.
      intros <-. apply (D (fst b)); simpl; auto.
  Qed.

  (** *** evaluation of a translated right-hand side *)
  Variables (rho kappa : sx -> V) (delta : list (string * nat) -> V -> V).
  Notation mean' := (mean V v_num v_add v_mul v_pow v_zero v_one rho kappa delta).

  Lemma half_lmap x : half x = false -> half (lmap code_leaf x) = false.
  Proof. destruct x; simpl; auto. Qed.

  Lemma eval_flat cs m e : flat cs e -> (forall x, In x (leaves e) -> eval' m (code_leaf x) = Ok (mean' x)) ->
    eval' m (lmap code_leaf e) = Ok (mean' e).
  Proof.
    induction e using sx_ind'; intros F L; try (apply L; simpl; auto; fail).
    - inversion F as [| | | |? FL| |]; subst. clear F. cbn [lmap mean].
      cbn [eval]. induction l as [|y l IHl]; auto. inversion H; subst. inversion FL; subst. cbn [map].
      rewrite H2; auto; [|intros x Hx; apply L; simpl; apply in_or_app; auto]. cbn [bind].
      rewrite IHl; auto. intros x Hx. apply L. simpl. apply in_or_app. auto.
    - inversion F as [| | | | |? FL|]; subst. clear F. cbn [lmap mean].
      cbn [eval]. induction l as [|y l IHl]; auto. inversion H; subst. inversion FL; subst. cbn [map].
      rewrite H2; auto; [|intros x Hx; apply L; simpl; apply in_or_app; auto]. cbn [bind].
      rewrite IHl; auto. intros x Hx. apply L. simpl. apply in_or_app. auto.
    - inversion F; subst. cbn [lmap mean eval]. rewrite half_lmap by auto.
      rewrite IHe1; auto; [|intros x Hx; apply L; simpl; apply in_or_app; auto]. cbn [bind].
      rewrite IHe2; auto. intros x Hx; apply L; simpl; apply in_or_app; auto.
  Qed.
End Running.

Section Final.
  Variable V : Type.
  Variables (v_num : Q -> V) (v_add v_mul v_pow : V -> V -> V) (v_zero v_one : V).
  Variable disc : list (string * nat) -> V -> res V.
  Variable attr : string -> res V.
  Variable exo : option (list V).
  Variables (rho kappa : sx -> V) (delta : list (string * nat) -> V -> V).
  Notation exec' := (exec V v_num v_add v_mul v_pow v_zero v_one disc attr exo).
  Notation eval' := (eval V v_num v_add v_mul v_pow v_zero v_one).
  Notation mean' := (mean V v_num v_add v_mul v_pow v_zero v_one rho kappa delta).

  Variable enum : list sx -> list sx.
  Hypothesis E : forall l, Permutation (enum l) l.
  Variables (eqs : list equation) (S : pdes) (state : list V).
  Hypothesis B : pde_system enum eqs = Ok S.
  Hypothesis T : translatable S eqs.
  Hypothesis H : holds enum S rho kappa delta disc attr exo state.

  Definition m0 : mem V := {| m_env := [("self", RSelf V); ("t", RTime V); ("state", RState V); ("dstate", RDstate V)];
                              m_d := map (fun _ => v_zero) state; m_s := state |}.
  Definition bD := map (fun p => (function_trend (snd p), RD V (fst p))) (number 0 (s_prognostic S)).
  Definition bS := map (fun p => (function_keyvar (snd p), RS V (fst p))) (number 0 (s_prognostic S)).
  Definition bC := map (fun f => (function_keyvar f, RV V (rho f))) (enum (s_constant S)).
  Definition bK := map (fun c => (constant_keyvar c, RV V (kappa c))) (enum (s_constants S)).
  Definition bX := map (fun p => (function_keyvar (snd p), RV V (rho (snd p)))) (number 0 (enum (s_exogenous S))).
  Definition bE : list (string * ref V) := match enum (s_exogenous S) with [] => [] | _ => [("exogenous", RExogenous V)] end.
  Definition dval (d : sx) : V := match d with SDer g v => delta v (rho g) | _ => v_zero end.
  Definition bF := map (fun d => (dname d, RV V (dval d))) (enum (s_derivatives S)).
  Definition bAll := bD ++ bS ++ bC ++ bK ++ bX ++ bF.

  Lemma names_perm : Permutation (map fst bAll) (names S).
  Proof.
    unfold bAll, names. rewrite !map_app. unfold bD, bS, bC, bK, bX, bF. rewrite !map_map.
    assert (N : forall (X Y : Type) (f : X -> Y) (l : list X) k, map (fun p => f (snd p)) (number k l) = map f l).
    { intros X Y f l k. rewrite <- (map_map snd f). rewrite map_snd_number. reflexivity. }
    repeat apply Permutation_app; cbn [fst snd]; rewrite ?N; auto; apply Permutation_map, E.
  Qed.
  Lemma names_nodup : NoDup (map fst bAll).
  Proof. eapply Permutation_NoDup; [apply Permutation_sym, names_perm|apply (t_distinct _ _ T)]. Qed.
  Lemma names_free x : In x (map fst bAll) -> ~ In x reserved.
  Proof. intros Hx. apply (t_free _ _ T). eapply Permutation_in; [apply names_perm|exact Hx]. Qed.

  Ltac inb := unfold bAll; rewrite ?map_app, ?in_app_iff; auto 10.

  Definition objects := ["self"; "t"; "state"; "dstate"].
  Lemma free_objects bs : incl bs bAll -> forall x, In x (map fst bs) -> ~ In x objects.
  Proof.
    intros I x Hx Ho. apply (names_free x).
    - apply in_map_iff in Hx as (b & <- & Hb). apply in_map. auto.
    - simpl in *. tauto.
  Qed.
  Lemma free_exogenous bs : incl bs bAll -> forall x, In x (map fst bs) -> ~ In x ("exogenous" :: objects).
  Proof.
    intros I x Hx Ho. apply (names_free x).
    - apply in_map_iff in Hx as (b & <- & Hb). apply in_map. auto.
    - simpl in *. tauto.
  Qed.

  Definition has_objects (m : mem V) : Prop :=
    dget string_dec "self" (m_env V m) = Some (RSelf V) /\ dget string_dec "t" (m_env V m) = Some (RTime V) /\
    dget string_dec "state" (m_env V m) = Some (RState V) /\ dget string_dec "dstate" (m_env V m) = Some (RDstate V) /\
    m_d V m = map (fun _ => v_zero) state /\ m_s V m = state.
  Lemma agree_objects m m' : agree V objects m m' -> has_objects m -> has_objects m'.
  Proof.
    intros (A1 & A2 & A3) (H1 & H2 & H3 & H4 & H5 & H6). unfold has_objects. unfold objects in A1.
    rewrite !A1, A2, A3 by (simpl; auto 10). auto 10.
  Qed.
  Lemma put_objects bs m : (forall x, In x (map fst bs) -> ~ In x objects) -> has_objects m -> has_objects (put V bs m).
  Proof.
    intros N. apply agree_objects. split; [|split; [apply put_d|apply put_s]].
    intros x Hx. apply put_other. intros Hi. apply (N x); auto.
  Qed.

  Lemma state_row i f : nth_error (s_prognostic S) i = Some f -> nth_error state i = Some (rho f).
  Proof. intros Hf. rewrite (h_state _ _ _ _ _ _ _ _ _ H). apply map_nth_error. exact Hf. Qed.
  Lemma zero_row i f : nth_error (s_prognostic S) i = Some f -> nth_error (map (fun _ : V => v_zero) state) i = Some v_zero.
  Proof. intros Hf. apply (map_nth_error (fun _ => v_zero)) with (d := rho f). apply state_row; auto. Qed.

  Lemma run_D m : has_objects m ->
    foldM exec' m (map (fun p => AliasD (function_trend (snd p)) (fst p)) (number 0 (s_prognostic S))) = Ok (put V bD m).
  Proof.
    intros O. apply (segment V v_num v_add v_mul v_pow v_zero v_one disc attr exo objects).
    - apply Forall2_map2. intros [i f] Hi m' A. apply agree_objects in A; auto. destruct A as (A1 & A2 & A3 & A4 & A5 & A6).
      apply in_number in Hi as [_ Hi]. rewrite Nat.sub_0_r in Hi. cbn [exec fst snd]. unfold object, lookup. rewrite A4. cbn [bind is_dstate].
      unfold row. rewrite A5, (zero_row _ _ Hi). reflexivity.
    - apply free_objects. intros x Hx. inb.
  Qed.
  Lemma run_S m : has_objects m ->
    foldM exec' m (map (fun p => AliasS (function_keyvar (snd p)) (fst p)) (number 0 (s_prognostic S))) = Ok (put V bS m).
  Proof.
    intros O. apply (segment V v_num v_add v_mul v_pow v_zero v_one disc attr exo objects).
    - apply Forall2_map2. intros [i f] Hi m' A. apply agree_objects in A; auto. destruct A as (A1 & A2 & A3 & A4 & A5 & A6).
      apply in_number in Hi as [_ Hi]. rewrite Nat.sub_0_r in Hi. cbn [exec fst snd]. unfold object, lookup. rewrite A3. cbn [bind is_state].
      unfold row. rewrite A6, (state_row _ _ Hi). reflexivity.
    - apply free_objects. intros x Hx. inb.
  Qed.
  Lemma run_C m : has_objects m ->
    foldM exec' m (map (fun f => Attr (function_keyvar f) (function_keyvar f)) (enum (s_constant S))) = Ok (put V bC m).
  Proof.
    intros O. apply (segment V v_num v_add v_mul v_pow v_zero v_one disc attr exo objects).
    - apply Forall2_map2. intros f Hi m' A. apply agree_objects in A; auto. destruct A as (A1 & A2 & A3 & A4 & A5 & A6).
      apply (Permutation_in _ (E _)) in Hi. cbn [exec fst snd]. unfold object, lookup. rewrite A1. cbn [bind is_self].
      rewrite (h_constant _ _ _ _ _ _ _ _ _ H f Hi). reflexivity.
    - apply free_objects. intros x Hx. inb.
  Qed.
  Lemma run_K m : has_objects m ->
    foldM exec' m (map (fun c => Attr (constant_keyvar c) (constant_keyvar c)) (enum (s_constants S))) = Ok (put V bK m).
  Proof.
    intros O. apply (segment V v_num v_add v_mul v_pow v_zero v_one disc attr exo objects).
    - apply Forall2_map2. intros f Hi m' A. apply agree_objects in A; auto. destruct A as (A1 & A2 & A3 & A4 & A5 & A6).
      apply (Permutation_in _ (E _)) in Hi. cbn [exec fst snd]. unfold object, lookup. rewrite A1. cbn [bind is_self].
      rewrite (h_constants _ _ _ _ _ _ _ _ _ H f Hi). reflexivity.
    - apply free_objects. intros x Hx. inb.
  Qed.
  Lemma run_X m : has_objects m -> foldM exec' m (exo_part enum S) = Ok (put V bX (put V bE m)).
  Proof.
    intros O. unfold exo_part, bX, bE. destruct (enum (s_exogenous S)) as [|f0 l0] eqn:L; [reflexivity|].
    assert (Ne : s_exogenous S <> []).
    { intros Z. pose proof (E (s_exogenous S)) as P. rewrite L, Z in P. apply Permutation_length in P. discriminate. }
    assert (C : exec' m CallExogenous = Ok (put V [("exogenous", RExogenous V)] m)).
    { destruct O as (A1 & A2 & A3 & _). cbn [exec]. unfold object, lookup. rewrite A1, A2, A3. reflexivity. }
    cbn [foldM]. rewrite C. cbn [bind].
    pose proof (h_exogenous _ _ _ _ _ _ _ _ _ H Ne) as X.
    assert (I : incl (map (fun p => (function_keyvar (snd p), RV V (rho (snd p)))) (number 0 (f0 :: l0))) bAll).
    { rewrite <- L. fold bX. intros y Hy. inb. }
    apply (segment V v_num v_add v_mul v_pow v_zero v_one disc attr exo ["exogenous"]).
    - apply Forall2_map2. intros [i f] Hi m' (A1 & A2 & A3). apply in_number in Hi as [_ Hi]. rewrite Nat.sub_0_r in Hi.
      cbn [exec fst snd]. unfold object, lookup. rewrite A1 by (simpl; auto). rewrite (put_in V [("exogenous", RExogenous V)] m "exogenous" (RExogenous V)).
      + cbn [bind is_exogenous]. rewrite X. unfold row. rewrite L, (map_nth_error rho _ _ Hi). reflexivity.
      + repeat constructor. intros [].
      + simpl; auto.
    - intros x Hx [<-|[]]. apply (free_exogenous _ I) in Hx. apply Hx. simpl; auto.
  Qed.

  Definition bPre := bD ++ bS ++ bC ++ bK ++ bE ++ bX.
  Lemma pre_nodup : NoDup (map fst (bPre ++ bF)).
  Proof.
    assert (P : Permutation (map fst (bPre ++ bF)) (map fst bE ++ map fst bAll)).
    { unfold bPre, bAll. rewrite !map_app, <- !app_assoc.
      repeat match goal with |- Permutation (?a ++ _) (_ ++ ?a ++ _) => idtac end.
      transitivity ((map fst bD ++ map fst bS ++ map fst bC ++ map fst bK) ++ map fst bE ++ (map fst bX ++ map fst bF)).
      { rewrite <- !app_assoc. reflexivity. }
      rewrite (Permutation_app_swap_app (map fst bD ++ map fst bS ++ map fst bC ++ map fst bK)). rewrite <- !app_assoc. reflexivity. }
    eapply Permutation_NoDup; [apply Permutation_sym, P|]. unfold bE. destruct (enum (s_exogenous S)); [apply names_nodup|].
    cbn [map fst app]. constructor; [|apply names_nodup]. intros Hi. apply names_free in Hi. apply Hi. simpl; auto 10.
  Qed.
  Lemma pre_nodup_l : NoDup (map fst bPre).
  Proof. pose proof pre_nodup as N. rewrite map_app in N. clear - N. induction (map fst bPre) as [|y l IH]; [constructor|]. inversion N; subst. constructor; auto. intros Hi. apply H1. apply in_or_app; auto. Qed.

  Lemma function_ref f : In f (s_functions S) -> exists r, In (function_keyvar f, r) bPre /\
    forall m, m_s V m = state -> deref V m r = Ok (rho f).
  Proof.
    intros Hf. destruct (functions_partition enum E eqs S B f) as (_ & X & _). specialize (X Hf).
    assert (C : In f (s_prognostic S) \/ In f (s_constant S) \/ In f (s_exogenous S)) by (unfold exactly_one in X; tauto).
    clear X. destruct C as [C|[C|C]].
    - apply In_nth_error in C as [i C]. exists (RS V i). split.
      + unfold bPre. rewrite !in_app_iff. right; left. unfold bS. apply in_map_iff. exists (i, f). split; auto.
        apply in_number. rewrite Nat.sub_0_r. split; [lia|auto].
      + intros m Hm. cbn [deref]. unfold row. rewrite Hm, (state_row _ _ C). reflexivity.
    - exists (RV V (rho f)). split; [|reflexivity]. unfold bPre. rewrite !in_app_iff. right; right; left.
      unfold bC. apply in_map_iff. exists f. split; auto. eapply Permutation_in; [apply Permutation_sym, E|exact C].
    - exists (RV V (rho f)). split; [|reflexivity]. unfold bPre. rewrite !in_app_iff. do 5 right.
      unfold bX. apply (Permutation_in _ (Permutation_sym (E _))) in C. apply In_nth_error in C as [i C].
      apply in_map_iff. exists (i, f). split; auto. apply in_number. rewrite Nat.sub_0_r. split; [lia|auto].
  Qed.

  Lemma rhs_function q f l : In q eqs -> In (SApp f l) (subterms (snd q)) -> In (SApp f l) (s_functions S).
  Proof.
    intros Hq Hs. apply (proj2 (proj1 (functions_partition enum E eqs S B _))). split; [left; eauto|].
    destruct q as [a b]. exists a, b. auto.
  Qed.
  Lemma derivative_base g v : In (SDer g v) (s_derivatives S) -> In g (s_functions S).
  Proof.
    intros Hd. destruct (nice_derivative enum eqs S B T _ Hd) as (f & l & v' & Eq & _). injection Eq as -> ->.
    apply (in_derivatives enum eqs S B) in Hd as (_ & q & Hq & Hd). eapply rhs_function; eauto.
    eapply subterms_trans; [exact Hd|]. right. simpl. left. reflexivity.
  Qed.

  Lemma m0_objects : has_objects m0.
  Proof. repeat split. Qed.
  Lemma pre_objects : forall x, In x (map fst bPre) -> ~ In x objects.
  Proof.
    intros x Hx. assert (D : In x (map fst bAll) \/ In x (map fst bE)).
    { unfold bPre in Hx. unfold bAll. rewrite !map_app, !in_app_iff in *. tauto. }
    destruct D as [D|D].
    - apply (free_objects bAll); auto. apply incl_refl.
    - unfold bE in D. destruct (enum (s_exogenous S)); [contradiction|]. destruct D as [<-|[]].
      simpl. intuition discriminate.
  Qed.

  Lemma run_pre :
    foldM exec' m0
      (map (fun p => AliasD (function_trend (snd p)) (fst p)) (number 0 (s_prognostic S)) ++
       map (fun p => AliasS (function_keyvar (snd p)) (fst p)) (number 0 (s_prognostic S)) ++
       map (fun f => Attr (function_keyvar f) (function_keyvar f)) (enum (s_constant S)) ++
       map (fun c => Attr (constant_keyvar c) (constant_keyvar c)) (enum (s_constants S)) ++
       exo_part enum S) = Ok (put V bPre m0).
  Proof.
    assert (O0 := m0_objects). unfold bPre. rewrite !put_app.
    assert (O1 : has_objects (put V bD m0)).
    { apply put_objects; auto. apply free_objects. intros x Hx. inb. }
    assert (O2 : has_objects (put V bS (put V bD m0))).
    { apply put_objects; auto. apply free_objects. intros x Hx. inb. }
    assert (O3 : has_objects (put V bC (put V bS (put V bD m0)))).
    { apply put_objects; auto. apply free_objects. intros x Hx. inb. }
    assert (O4 : has_objects (put V bK (put V bC (put V bS (put V bD m0))))).
    { apply put_objects; auto. apply free_objects. intros x Hx. inb. }
    rewrite foldM_app, run_D by auto. cbn [bind].
    rewrite foldM_app, run_S by auto. cbn [bind].
    rewrite foldM_app, run_C by auto. cbn [bind].
    rewrite foldM_app, run_K by auto. cbn [bind].
    apply run_X; auto.
  Qed.

  Lemma run_F : foldM exec' (put V bPre m0) (map dstmt (enum (s_derivatives S))) = Ok (put V (bPre ++ bF) m0).
  Proof.
    rewrite put_app.
    apply (segment V v_num v_add v_mul v_pow v_zero v_one disc attr exo (objects ++ map fst bPre)).
    - apply Forall2_map2. intros d Hd m' (A1 & A2 & A3). apply (Permutation_in _ (E _)) in Hd.
      destruct (nice_derivative enum eqs S B T d Hd) as (f & l & v & -> & _).
      assert (O : has_objects (put V bPre m0)) by (apply put_objects; [apply pre_objects|apply m0_objects]).
      assert (Ag : agree V objects (put V bPre m0) m').
      { split; [|auto]. intros x Hx. apply A1. apply in_or_app; auto. }
      pose proof (agree_objects _ _ Ag O) as (O1 & _ & _ & _ & _ & O6).
      destruct (function_ref (SApp f l) (derivative_base _ _ Hd)) as (r & Hr & Dr).
      cbn [dstmt exec]. unfold object, lookup. rewrite O1. cbn [bind is_self].
      rewrite A1 by (apply in_or_app; right; apply in_map_iff; eexists; split; [|exact Hr]; reflexivity).
      rewrite (put_in V bPre m0 _ r pre_nodup_l Hr). cbn [bind]. rewrite (Dr m' O6). cbn [bind].
      rewrite (h_disc _ _ _ _ _ _ _ _ _ H _ _ Hd). reflexivity.
    - intros x Hx Hi. apply in_app_or in Hi as [Hi|Hi].
      + apply (free_objects bF) in Hi; auto. intros y Hy. inb.
      + pose proof pre_nodup as N. rewrite map_app in N. clear - N Hx Hi.
        induction (map fst bPre) as [|y l IH]; [contradiction|]. simpl in N. inversion N; subst.
        destruct Hi as [->|Hi]; [apply H1; apply in_or_app; auto|auto].
  Qed.

  Definition ready (m : mem V) : Prop := m_env V m = m_env V (put V (bPre ++ bF) m0) /\ m_s V m = state.
  Lemma ready_lookup m x r : ready m -> In (x, r) (bPre ++ bF) -> lookup V m x = Ok r.
  Proof.
    intros [R _] Hi. unfold lookup. rewrite R, (put_in V _ m0 x r pre_nodup Hi). reflexivity.
  Qed.
  Lemma ready_leaf m q x : ready m -> In q eqs -> In x (leaves (snd q)) -> eval' m (code_leaf x) = Ok (mean' x).
  Proof.
    intros R Hq Hx. pose proof (flat_leaf _ _ (t_rhs _ _ T _ Hq) _ Hx) as F. pose proof (leaves_subterms _ _ Hx) as Sx.
    assert (L := leaves_leaf _ _ Hx).
    inversion F; subst; try contradiction; cbn [code_leaf eval mean]; clear F L; auto.
    - rewrite (ready_lookup m _ (RV V (kappa (SSym k s))) R); [reflexivity|].
      unfold bPre. rewrite !in_app_iff. left; right; right; right; left. unfold bK. apply in_map_iff. exists (SSym k s).
      split; auto. eapply Permutation_in; [apply Permutation_sym, E|auto].
    - destruct (function_ref (SApp f l) (rhs_function q _ _ Hq Sx)) as (r & Hr & Dr).
      rewrite (ready_lookup m _ r R) by (apply in_or_app; auto). cbn [bind]. apply Dr. apply R.
    - assert (Hd : In (SDer (SApp f l) v) (s_derivatives S)) by (apply (in_derivatives enum eqs S B); split; eauto).
      rewrite (ready_lookup m _ (RV V (dval (SDer (SApp f l) v))) R); [reflexivity|].
      apply in_or_app. right. unfold bF. apply in_map_iff. exists (SDer (SApp f l) v). split; auto.
      eapply Permutation_in; [apply Permutation_sym, E|auto].
  Qed.

  Lemma set_nth_mid {X} (a : list X) x y b : set_nth (List.length a) y (a ++ x :: b) = a ++ y :: b.
  Proof. induction a; simpl; congruence. Qed.
  Lemma nth_error_mid {X} (a : list X) x b : nth_error (a ++ x :: b) (List.length a) = Some x.
  Proof. induction a; simpl; auto. Qed.

  Lemma run_lines p : forall qs k done m, ready m -> List.length p = List.length qs -> incl qs eqs ->
    (forall i f, nth_error p i = Some f -> nth_error (s_prognostic S) (k + i) = Some f) ->
    List.length done = k -> m_d V m = done ++ map (fun _ => v_zero) p ->
    exists m', foldM exec' m (map line (combine p qs)) = Ok m' /\ ready m' /\
      m_d V m' = done ++ map mean' (map snd qs).
  Proof.
    induction p as [|f p IH]; intros [|q qs] k done m R L I N Ld D; try discriminate.
    - exists m. auto.
    - cbn [combine map foldM line fst snd exec].
      rewrite (eval_flat V v_num v_add v_mul v_pow v_zero v_one rho kappa delta (s_constants S) m (snd q)).
      2: { apply (t_rhs _ _ T). apply I. simpl; auto. }
      2: { intros x Hx. apply (ready_leaf m q); auto. apply I. simpl; auto. }
      cbn [bind]. pose proof (N 0 f eq_refl) as N0. rewrite Nat.add_0_r in N0.
      rewrite (ready_lookup m _ (RD V k) R).
      2: { apply in_or_app. left. unfold bPre. apply in_or_app. left. unfold bD. apply in_map_iff. exists (k, f).
           split; auto. apply in_number. rewrite Nat.sub_0_r. split; [lia|auto]. }
      cbn [bind]. unfold row. rewrite D, <- Ld. cbn [map]. rewrite nth_error_mid. cbn [bind].
      rewrite set_nth_mid.
      destruct (IH qs (Datatypes.S k) (done ++ [mean' (snd q)])
        {| m_env := m_env V m; m_d := done ++ mean' (snd q) :: map (fun _ => v_zero) p; m_s := m_s V m |}) as (m' & F & R' & D'); auto.
      + intros x Hx. apply I. simpl; auto.
      + intros i g Hi. replace (Datatypes.S k + i) with (k + Datatypes.S i) by lia. apply N. exact Hi.
      + rewrite app_length. simpl. lia.
      + cbn [m_d]. rewrite <- app_assoc. reflexivity.
      + exists m'. split; [exact F|]. split; auto. rewrite D', <- app_assoc. reflexivity.
  Qed.

  Lemma np_free : lmem string_dec "np" (flat_map assigned (program enum eqs S)) = false.
  Proof.
    apply lmem_false. intros Hi. apply in_flat_map in Hi as (st & Hst & Hi).
    assert (G : In "np" (map fst bAll) -> False) by (intros Hn; apply names_free in Hn; apply Hn; simpl; auto 10).
    unfold program in Hst. rewrite !in_app_iff in Hst.
    assert (K : forall bs, In "np" (map fst bs) -> incl bs bAll -> False).
    { intros bs Hb I. apply G. apply in_map_iff in Hb as (b & Eb & Hb). apply in_map_iff. exists b. auto. }
    destruct Hst as [Hst|[Hst|[Hst|[Hst|[Hst|[Hst|Hst]]]]]].
    - apply in_map_iff in Hst as (p & <- & Hp). simpl in Hi. destruct Hi as [Hi|[]].
      apply (K bD); [|intros x Hx; inb]. unfold bD. rewrite map_map. apply in_map_iff. exists p. auto.
    - apply in_map_iff in Hst as (p & <- & Hp). simpl in Hi. destruct Hi as [Hi|[]].
      apply (K bS); [|intros x Hx; inb]. unfold bS. rewrite map_map. apply in_map_iff. exists p. auto.
    - apply in_map_iff in Hst as (p & <- & Hp). simpl in Hi. destruct Hi as [Hi|[]].
      apply (K bC); [|intros x Hx; inb]. unfold bC. rewrite map_map. apply in_map_iff. exists p. auto.
    - apply in_map_iff in Hst as (p & <- & Hp). simpl in Hi. destruct Hi as [Hi|[]].
      apply (K bK); [|intros x Hx; inb]. unfold bK. rewrite map_map. apply in_map_iff. exists p. auto.
    - unfold exo_part in Hst. destruct (enum (s_exogenous S)) eqn:L; [contradiction|].
      destruct Hst as [<-|Hst]; [destruct Hi as [Hi|[]]; discriminate|].
      apply in_map_iff in Hst as (p & <- & Hp). simpl in Hi. destruct Hi as [Hi|[]].
      apply (K bX); [|intros x Hx; inb]. unfold bX. rewrite map_map, L. apply in_map_iff. exists p. auto.
    - apply in_map_iff in Hst as (d & <- & Hd). assert (Hd' := Hd). apply (Permutation_in _ (E _)) in Hd'.
      destruct (nice_derivative enum eqs S B T d Hd') as (f & l' & v & -> & _). simpl in Hi. destruct Hi as [Hi|[]].
      apply (K bF); [|intros x Hx; inb]. unfold bF. rewrite map_map. apply in_map_iff. exists (SDer (SApp f l') v). split; [exact Hi|exact Hd].
    - apply in_map_iff in Hst as (p & <- & Hp). contradiction.
  Qed.

  Theorem trend_correct :
    trend_program enum S eqs = Ok (program enum eqs S) /\
    run_trend V v_num v_add v_mul v_pow v_zero v_one disc attr exo (program enum eqs S) state =
      Ok (map mean' (map snd eqs), state).
  Proof.
    split; [apply program_ok; auto|]. unfold run_trend. rewrite np_free. fold m0.
    unfold program. rewrite !app_assoc. rewrite foldM_app, foldM_app, <- !app_assoc, run_pre. cbn [bind]. rewrite run_F. cbn [bind].
    destruct (run_lines (s_prognostic S) eqs 0 [] (put V (bPre ++ bF) m0)) as (m' & F & R & D).
    - split; auto. rewrite put_s. reflexivity.
    - pose proof (t_lhs _ _ T) as Hl. apply (f_equal (@List.length sx)) in Hl. rewrite !map_length in Hl. auto.
    - apply incl_refl.
    - intros i f Hi. exact Hi.
    - reflexivity.
    - rewrite put_d. cbn [m0 m_d app]. rewrite (h_state _ _ _ _ _ _ _ _ _ H), map_map. reflexivity.
    - rewrite F. cbn [bind]. rewrite D. destruct R as [_ R]. rewrite R. reflexivity.
  Qed.
End Final.
