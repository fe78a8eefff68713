From Coq Require Import List Arith Bool Lia Permutation.
From Verif Require Import PyBase PyBaseFacts ForecastModel ForecastSpec.
Import ListNotations.
Open Scope py_scope.

Lemma firsts_from_In {T} (teq : forall a b : T, {a=b}+{a<>b}) seen l x :
  In x (firsts_from teq seen l) <-> In x l /\ ~ In x seen.
Proof.
  revert seen. induction l as [|y r IH]; intros seen; simpl; [tauto|].
  destruct (in_dec teq y seen).
  - rewrite IH. split; [tauto|]. intros [[<-|H] Hn]; tauto.
  - simpl. rewrite IH. simpl. destruct (teq y x); subst; tauto.
Qed.

Lemma firsts_from_NoDup {T} (teq : forall a b : T, {a=b}+{a<>b}) seen l :
  NoDup (firsts_from teq seen l).
Proof.
  revert seen. induction l as [|y r IH]; intros seen; simpl; [constructor|].
  destruct (in_dec teq y seen); auto. constructor; auto.
  rewrite firsts_from_In. simpl. tauto.
Qed.

Lemma firsts_from_ext {T} (teq : forall a b : T, {a=b}+{a<>b}) s1 s2 l :
  (forall x, In x l -> (In x s1 <-> In x s2)) ->
  firsts_from teq s1 l = firsts_from teq s2 l.
Proof.
  revert s1 s2. induction l as [|y r IH]; intros s1 s2 H; simpl; auto.
  assert (Hy := H y (or_introl eq_refl)).
  destruct (in_dec teq y s1), (in_dec teq y s2); try tauto.
  - apply IH. intros. apply H. right; auto.
  - f_equal. apply IH. intros x Hx. simpl. rewrite (H x) by (right; auto). tauto.
Qed.

Lemma firsts_NoDup_id {T} (teq : forall a b : T, {a=b}+{a<>b}) l :
  NoDup l -> firsts teq l = l.
Proof.
  intros H. unfold firsts.
  assert (G : forall seen, (forall x, In x l -> ~ In x seen) -> firsts_from teq seen l = l).
  { induction H as [|x r Hx Hr IH]; intros seen Hs; simpl; auto.
    destruct (in_dec teq x seen) as [i|]; [exfalso; apply (Hs x); simpl; auto|].
    f_equal. apply IH. intros y Hy [->|Hi]; [tauto|]. apply (Hs y); simpl; auto. }
  apply G. simpl. tauto.
Qed.


Lemma saved_list_spec {T} (w : list T) sv l t : saved_list w sv = Some l -> (In t l <-> is_saved w sv t).
Proof.
  destruct sv; simpl; intros H; inversion H; subst; simpl; try tauto.
  split; [intros [H0|[]]; auto|auto].
Qed.

Section Proofs.
  Context {T D S TR : Type}.
  Variable teq : forall a b : T, {a = b} + {a <> b}.
  Variable tsub : T -> T -> D.
  Variable scheme : TR -> T -> S -> D -> res S.
  Variable trend : TR.
  Notation reach := (reach tsub scheme trend).
  Notation last_visit := (last_visit tsub scheme trend).
  Notation first_failure := (first_failure tsub scheme trend).
  Notation forecast := (forecast teq tsub scheme trend).
  Notation predict := (predict teq tsub scheme trend).
  Notation floop := (forecast_loop teq tsub scheme trend).
  Notation ploop := (predict_loop teq tsub scheme trend).

  Lemma reach_det w u0 k u v : reach w u0 k u -> reach w u0 k v -> u = v.
  Proof.
    intros H. revert v. induction H; intros v' Hv; inversion Hv; subst; auto.
    apply IHreach. congruence.
  Qed.

  Lemma reach_bound w u0 k u : reach w u0 k u -> k < length w.
  Proof. induction 1; simpl in *; lia. Qed.

  Lemma last_visit_det w u0 t u v : last_visit w u0 t u -> last_visit w u0 t v -> u = v.
  Proof.
    intros (k & Hk & Lk & Rk) (j & Hj & Lj & Rj).
    destruct (Nat.lt_trichotomy k j) as [H|[->|H]].
    - exfalso. apply (Lk j H Hj).
    - eapply reach_det; eauto.
    - exfalso. apply (Lj k H Hk).
  Qed.

  Lemma last_visit_cons_old t0 t1 w u0 u1 t u :
    scheme trend t0 u0 (tsub t1 t0) = Ok u1 ->
    In t (t1 :: w) ->
    (last_visit (t0 :: t1 :: w) u0 t u <-> last_visit (t1 :: w) u1 t u).
  Proof.
    intros Hs Hin. split.
    - intros (k & Hk & Lk & Rk). inversion Rk; subst.
      + exfalso. apply In_nth_error in Hin as [j Hj].
        apply (Lk (Datatypes.S j)); [lia|exact Hj].
      + exists k0. repeat split; auto.
        * intros k' Hlt Hk'. apply (Lk (Datatypes.S k')); [lia|exact Hk'].
        * congruence.
    - intros (k & Hk & Lk & Rk). exists (Datatypes.S k). repeat split; auto.
      + intros [|k'] Hlt Hk'; [lia|]. apply (Lk k'); [lia|exact Hk'].
      + econstructor; eauto.
  Qed.

  Lemma last_visit_cons_new t0 t1 w u0 t u :
    ~ In t (t1 :: w) ->
    (last_visit (t0 :: t1 :: w) u0 t u <-> t = t0 /\ u = u0).
  Proof.
    intros Hin. split.
    - intros (k & Hk & Lk & Rk). destruct k as [|k].
      + simpl in Hk. inversion Hk; inversion Rk; subst; auto.
      + exfalso. apply Hin. simpl in Hk. eapply nth_error_In; eauto.
    - intros [-> ->]. exists 0. repeat split; auto.
      + intros [|k'] Hlt Hk'; [lia|]. apply Hin. simpl in Hk'. eapply nth_error_In; eauto.
      + constructor.
  Qed.

  Lemma last_visit_single t0 u0 t u : last_visit [t0] u0 t u <-> t = t0 /\ u = u0.
  Proof.
    split.
    - intros (k & Hk & Lk & Rk). inversion Rk; subst. simpl in Hk. inversion Hk; auto.
    - intros [-> ->]. exists 0. repeat split; auto; [|constructor].
      intros [|[|k']] Hlt; simpl; try lia; discriminate.
  Qed.

  Lemma last_visit_In w u0 t u : last_visit w u0 t u -> In t w.
  Proof. intros (k & Hk & _). eapply nth_error_In; eauto. Qed.

  (** full run (loop + last time) from an accumulated trajectory *)
  Definition fw (l : list T) (traj : dict T S) (w : list T) (u0 : S) : res (dict T S) :=
    r <- floop (SIter l) (intervals w) traj u0 ;;
    let '(traj, u) := r in
    match last_opt w with
    | None => Err IndexError
    | Some time => Ok (if lmem teq time l then dset teq time u traj else traj)
    end.

  Lemma fw_cons l traj t t' w u :
    fw l traj (t :: t' :: w) u =
    (u1 <- scheme trend t u (tsub t' t) ;;
     fw l (if lmem teq t l then dset teq t u traj else traj) (t' :: w) u1).
  Proof.
    unfold fw, intervals.
    change (removelast (t :: t' :: w)) with (t :: removelast (t' :: w)).
    change (tl (t :: t' :: w)) with (t' :: w).
    simpl combine. cbn [forecast_loop py_in bind].
    destruct (scheme trend t u (tsub t' t)); [|reflexivity].
    cbn [bind]. reflexivity.
  Qed.

  Lemma fw_single l traj t u :
    fw l traj [t] u = Ok (if lmem teq t l then dset teq t u traj else traj).
  Proof. reflexivity. Qed.

  Lemma forecast_fw w u0 sv l :
    saved_list w sv = Some l -> forecast w u0 sv = fw l [] w u0.
  Proof.
    unfold forecast, ForecastModel.forecast, fw.
    destruct sv; simpl; intros H; inversion H; subst; reflexivity.
  Qed.

  Lemma forecast_SOther w u0 :
    forecast w u0 SOther = Err (match w with [] => IndexError | _ => TypeError end).
  Proof.
    unfold forecast, ForecastModel.forecast. destruct w as [|t [|t' w]]; reflexivity.
  Qed.

  (** main characterisation of the dictionary *)
  Lemma fw_get l w : forall traj u0 traj', w <> [] ->
    fw l traj w u0 = Ok traj' ->
    forall t u,
      dget teq t traj' = Some u <->
      (In t l /\ last_visit w u0 t u)
      \/ (~ (In t l /\ In t w) /\ dget teq t traj = Some u).
  Proof.
    induction w as [|t0 w IH]; intros traj u0 traj' Hw H t u; [congruence|].
    destruct w as [|t1 w].
    - rewrite fw_single in H. inversion H; subst; clear H.
      rewrite last_visit_single. simpl In.
      destruct (lmem teq t0 l) eqn:E.
      + apply lmem_true in E. rewrite dget_dset. destruct (teq t t0) as [->|Hn].
        * split.
          -- intros H; inversion H; subst. left; auto.
          -- intros [(_ & _ & ->)|[Hn _]]; auto. exfalso; apply Hn; auto.
        * split.
          -- intros H. right. split; auto. intros (_ & [?|[]]); congruence.
          -- intros [(_ & -> & _)|[_ H]]; congruence.
      + apply lmem_false in E. split.
        * intros H. right. split; auto. intros (H1 & [<-|[]]); auto.
        * intros [(H1 & -> & _)|[_ H]]; tauto.
    - rewrite fw_cons in H.
      destruct (scheme trend t0 u0 (tsub t1 t0)) as [u1|] eqn:Hs; [|discriminate].
      cbn [bind] in H. assert (Hne : t1 :: w <> []) by discriminate.
      rewrite (IH _ _ _ Hne H t u). clear H.
      destruct (in_dec teq t (t1 :: w)) as [Hin|Hin].
      + rewrite (last_visit_cons_old t0 t1 w u0 u1 t u Hs Hin).
        destruct (in_dec teq t l) as [Hl|Hl].
        * split; intros [[H1 H2]|[H1 H2]]; auto; exfalso; apply H1; split; auto.
          right; exact Hin.
        * split; intros [[H1 H2]|[H1 H2]]; try tauto; right; split; try tauto.
          -- destruct (lmem teq t0 l) eqn:E; auto. apply lmem_true in E.
             rewrite dget_dset_other in H2; auto. congruence.
          -- destruct (lmem teq t0 l) eqn:E; auto. apply lmem_true in E.
             rewrite dget_dset_other; auto. congruence.
      + rewrite (last_visit_cons_new t0 t1 w u0 t u Hin).
        assert (Hlv : ~ last_visit (t1 :: w) u1 t u) by (intros Hv%last_visit_In; auto).
        destruct (lmem teq t0 l) eqn:E.
        * apply lmem_true in E. rewrite dget_dset. destruct (teq t t0) as [->|Hn].
          -- split.
             ++ intros [[_ H]|[_ H]]; [tauto|]. inversion H; subst. left; auto.
             ++ intros [(_ & _ & ->)|[H _]]; [right; split; auto; tauto|].
                exfalso. apply H. split; auto. left; auto.
          -- split.
             ++ intros [[_ H]|[_ H]]; [tauto|]. right. split; auto.
                intros [_ [?|?]]; auto.
             ++ intros [(_ & ? & _)|[_ H]]; [congruence|]. right. split; auto. tauto.
        * apply lmem_false in E. split.
          -- intros [[_ H]|[_ H]]; [tauto|]. right. split; auto.
             intros [Hl [<-|?]]; auto.
          -- intros [(Hl & -> & _)|[_ H]]; [tauto|]. right. split; auto. tauto.
  Qed.

  Lemma fw_keys l w : forall traj u0 traj', w <> [] ->
    fw l traj w u0 = Ok traj' ->
    dkeys traj' = dkeys traj
       ++ firsts_from teq (dkeys traj) (filter (fun t => lmem teq t l) w).
  Proof.
    induction w as [|t0 w IH]; intros traj u0 traj' Hw H; [congruence|].
    destruct w as [|t1 w].
    - rewrite fw_single in H. inversion H; subst; clear H. simpl.
      destruct (lmem teq t0 l); simpl; [|rewrite app_nil_r; reflexivity].
      rewrite dkeys_dset. destruct (in_dec teq t0 (dkeys traj)); auto.
      rewrite app_nil_r; reflexivity.
    - rewrite fw_cons in H.
      destruct (scheme trend t0 u0 (tsub t1 t0)) as [u1|]; [|discriminate].
      cbn [bind] in H. rewrite (IH _ _ _ ltac:(discriminate) H). clear H.
      change (filter (fun t => lmem teq t l) (t0 :: t1 :: w))
        with (let r := filter (fun t => lmem teq t l) (t1 :: w) in
              if lmem teq t0 l then t0 :: r else r).
      cbv zeta. destruct (lmem teq t0 l); auto.
      rewrite dkeys_dset. cbn [firsts_from].
      destruct (in_dec teq t0 (dkeys traj)); auto.
      rewrite <- app_assoc. f_equal. simpl. f_equal.
      apply firsts_from_ext. intros x _. rewrite in_app_iff. simpl. tauto.
  Qed.

  Lemma fw_Err l w : forall traj u0 e,
    fw l traj w u0 = Err e <->
    (w = [] /\ e = IndexError) \/ first_failure w u0 e.
  Proof.
    induction w as [|t0 w IH]; intros traj u0 e.
    - unfold fw; simpl. split.
      + intros H; inversion H; auto.
      + intros [[_ ->]|(k & t & t' & u & H & _)]; auto. destruct k; discriminate.
    - destruct w as [|t1 w].
      + rewrite fw_single. split; [discriminate|].
        intros [[? _]|(k & t & t' & u & H & H' & _)]; [discriminate|].
        destruct k; simpl in *; [discriminate|destruct k; discriminate].
      + rewrite fw_cons. destruct (scheme trend t0 u0 (tsub t1 t0)) as [u1|e1] eqn:Hs; cbn [bind].
        * rewrite IH. split.
          -- intros [[? _]|(k & t & t' & u & H & H' & R & F)]; [discriminate|].
             right. exists (Datatypes.S k), t, t', u. repeat split; auto. econstructor; eauto.
          -- intros [[? _]|(k & t & t' & u & H & H' & R & F)]; [discriminate|].
             right. inversion R; subst.
             ++ simpl in H, H'. inversion H; inversion H'; subst. congruence.
             ++ exists k0, t, t', u. repeat split; auto. congruence.
        * split.
          -- intros H; inversion H; subst. right. exists 0, t0, t1, u0.
             repeat split; auto. constructor.
          -- intros [[? _]|(k & t & t' & u & H & H' & R & F)]; [discriminate|].
             inversion R; subst.
             ++ simpl in H, H'. inversion H; inversion H'; subst. congruence.
             ++ congruence.
  Qed.

  (** ** C01 *)
  Lemma forecast_values w u0 sv traj :
    forecast w u0 sv = Ok traj ->
    forall t u, dget teq t traj = Some u <-> is_saved w sv t /\ last_visit w u0 t u.
  Proof.
    intros H t u. destruct (saved_list w sv) as [l|] eqn:Hl.
    - rewrite (forecast_fw _ _ _ _ Hl) in H.
      assert (Hw : w <> []) by (intros ->; discriminate).
      rewrite (fw_get l w [] u0 traj Hw H t u).
      rewrite (saved_list_spec _ _ _ t Hl). simpl. split; [intros [?|[_ ?]]; [auto|discriminate]|auto].
    - destruct sv; try discriminate. rewrite forecast_SOther in H. discriminate.
  Qed.

  Lemma forecast_keys w u0 sv traj l :
    forecast w u0 sv = Ok traj ->
    (forall t, In t l <-> is_saved w sv t) ->
    dkeys traj = firsts teq (filter (fun t => lmem teq t l) w).
  Proof.
    intros H Hs. destruct (saved_list w sv) as [l'|] eqn:Hl.
    - rewrite (forecast_fw _ _ _ _ Hl) in H.
      assert (Hw : w <> []) by (intros ->; discriminate).
      rewrite (fw_keys l' w [] u0 traj Hw H). simpl. unfold firsts. f_equal.
      apply filter_ext. intros t. apply eq_true_iff_eq. rewrite !lmem_true.
      rewrite Hs. apply saved_list_spec; auto.
    - destruct sv; try discriminate. rewrite forecast_SOther in H. discriminate.
  Qed.

  Lemma forecast_keys_NoDup w u0 sv traj :
    forecast w u0 sv = Ok traj -> NoDup (dkeys traj).
  Proof.
    intros H. destruct (saved_list w sv) as [l'|] eqn:Hl.
    - erewrite forecast_keys; [apply firsts_from_NoDup|eauto|].
      intros t. apply saved_list_spec. exact Hl.
    - destruct sv; try discriminate. rewrite forecast_SOther in H. discriminate.
  Qed.

  (** ** C05 *)
  Lemma forecast_Err w u0 sv e :
    forecast w u0 sv = Err e <->
    (w = [] /\ e = IndexError)
    \/ (w <> [] /\ sv = SOther /\ e = TypeError)
    \/ (sv <> SOther /\ first_failure w u0 e).
  Proof.
    destruct (saved_list w sv) as [l|] eqn:Hl.
    - rewrite (forecast_fw _ _ _ _ Hl), fw_Err.
      assert (sv <> SOther) by (intros ->; discriminate).
      tauto.
    - destruct sv; try discriminate. rewrite forecast_SOther.
      destruct w as [|t w].
      + split.
        * intros H; inversion H; auto.
        * intros [[_ ->]|[[H _]|[H _]]]; congruence.
      + split.
        * intros H; inversion H. right; left. repeat split; congruence.
        * intros [[H _]|[(_ & _ & ->)|[H _]]]; congruence.
  Qed.

  (** ** predict *)
  Definition pw (l : list T) (traj : list S) (w : list T) (u0 : S) : res (list S) :=
    r <- ploop (SIter l) (intervals w) traj u0 ;;
    let '(traj, u) := r in
    match last_opt w with
    | None => Err IndexError
    | Some time => Ok (if lmem teq time l then traj ++ [u] else traj)
    end.

  Lemma pw_cons l traj t t' w u :
    pw l traj (t :: t' :: w) u =
    (u1 <- scheme trend t u (tsub t' t) ;;
     pw l (if lmem teq t l then traj ++ [u] else traj) (t' :: w) u1).
  Proof.
    unfold pw, intervals.
    change (removelast (t :: t' :: w)) with (t :: removelast (t' :: w)).
    change (tl (t :: t' :: w)) with (t' :: w).
    simpl combine. cbn [predict_loop py_in bind].
    destruct (scheme trend t u (tsub t' t)); [|reflexivity].
    cbn [bind]. reflexivity.
  Qed.

  Lemma predict_pw w u0 sv l :
    saved_list w sv = Some l -> predict w u0 sv = pw l [] w u0.
  Proof.
    unfold predict, ForecastModel.predict, pw.
    destruct sv; simpl; intros H; inversion H; subst; reflexivity.
  Qed.

  Lemma predict_SOther w u0 :
    predict w u0 SOther = Err (match w with [] => IndexError | _ => TypeError end).
  Proof.
    unfold predict, ForecastModel.predict. destruct w as [|t [|t' w]]; reflexivity.
  Qed.

  Lemma pw_Err l w : forall traj u0 e,
    pw l traj w u0 = Err e <-> (w = [] /\ e = IndexError) \/ first_failure w u0 e.
  Proof.
    induction w as [|t0 w IH]; intros traj u0 e.
    - unfold pw; simpl. split.
      + intros H; inversion H; auto.
      + intros [[_ ->]|(k & t & t' & u & H & _)]; auto. destruct k; discriminate.
    - destruct w as [|t1 w].
      + change (pw l traj [t0] u0) with (Ok (if lmem teq t0 l then traj ++ [u0] else traj)).
        split; [discriminate|].
        intros [[? _]|(k & t & t' & u & H & H' & _)]; [discriminate|].
        destruct k; simpl in *; [discriminate|destruct k; discriminate].
      + rewrite pw_cons. destruct (scheme trend t0 u0 (tsub t1 t0)) as [u1|e1] eqn:Hs; cbn [bind].
        * rewrite IH. split.
          -- intros [[? _]|(k & t & t' & u & H & H' & R & F)]; [discriminate|].
             right. exists (Datatypes.S k), t, t', u. repeat split; auto. econstructor; eauto.
          -- intros [[? _]|(k & t & t' & u & H & H' & R & F)]; [discriminate|].
             right. inversion R; subst.
             ++ simpl in H, H'. inversion H; inversion H'; subst. congruence.
             ++ exists k0, t, t', u. repeat split; auto. congruence.
        * split.
          -- intros H; inversion H; subst. right. exists 0, t0, t1, u0.
             repeat split; auto. constructor.
          -- intros [[? _]|(k & t & t' & u & H & H' & R & F)]; [discriminate|].
             inversion R; subst.
             ++ simpl in H, H'. inversion H; inversion H'; subst. congruence.
             ++ congruence.
  Qed.

  Lemma predict_Err w u0 sv e :
    predict w u0 sv = Err e <-> forecast w u0 sv = Err e.
  Proof.
    destruct (saved_list w sv) as [l|] eqn:Hl.
    - rewrite (forecast_fw _ _ _ _ Hl), (predict_pw _ _ _ _ Hl), fw_Err, pw_Err. tauto.
    - destruct sv; try discriminate. rewrite forecast_SOther, predict_SOther. split; intros H; inversion H; reflexivity.
  Qed.

  (** positions of the window whose time is saved *)
  Definition saved_positions (l : list T) (w : list T) : list nat :=
    filter (fun k => match nth_error w k with Some t => lmem teq t l | None => false end)
           (seq 0 (length w)).

  Lemma filter_seq_shift (p : nat -> bool) n :
    filter p (seq 1 n) = map Datatypes.S (filter (fun k => p (Datatypes.S k)) (seq 0 n)).
  Proof.
    rewrite <- seq_shift. induction (seq 0 n) as [|x r IH]; simpl; auto.
    destruct (p (Datatypes.S x)); simpl; rewrite IH; reflexivity.
  Qed.

  Lemma saved_positions_cons l t w :
    saved_positions l (t :: w) =
    (if lmem teq t l then [0] else []) ++ map Datatypes.S (saved_positions l w).
  Proof.
    unfold saved_positions. cbn [length seq filter nth_error].
    rewrite (filter_seq_shift _ (length w)). cbn [nth_error].
    destruct (lmem teq t l); reflexivity.
  Qed.

  Lemma Forall2_map_l {A B C} (R : B -> C -> Prop) (f : A -> B) l1 l2 :
    Forall2 R (map f l1) l2 <-> Forall2 (fun a c => R (f a) c) l1 l2.
  Proof.
    revert l2. induction l1 as [|x r IH]; intros [|y l2]; simpl; split; intros H;
      inversion H; subst; constructor; auto; apply IH; auto.
  Qed.

  Lemma Forall2_impl {A B} (R R' : A -> B -> Prop) l1 l2 :
    (forall a b, R a b -> R' a b) -> Forall2 R l1 l2 -> Forall2 R' l1 l2.
  Proof. intros H. induction 1; constructor; auto. Qed.

  Lemma pw_spec l w : forall traj u0 out, w <> [] ->
    pw l traj w u0 = Ok out ->
    exists us, out = traj ++ us /\ Forall2 (reach w u0) (saved_positions l w) us.
  Proof.
    induction w as [|t0 w IH]; intros traj u0 out Hw H; [congruence|].
    destruct w as [|t1 w].
    - change (pw l traj [t0] u0) with (Ok (if lmem teq t0 l then traj ++ [u0] else traj)) in H.
      inversion H; subst; clear H. rewrite saved_positions_cons.
      change (saved_positions l []) with (@nil nat).
      destruct (lmem teq t0 l); simpl.
      + exists [u0]. split; auto. constructor; [constructor|constructor].
      + exists []. rewrite app_nil_r. split; auto.
    - rewrite pw_cons in H.
      destruct (scheme trend t0 u0 (tsub t1 t0)) as [u1|] eqn:Hs; [|discriminate].
      cbn [bind] in H. destruct (IH _ _ _ ltac:(discriminate) H) as (us & -> & HF).
      rewrite saved_positions_cons.
      assert (HF' : Forall2 (reach (t0 :: t1 :: w) u0)
                            (map Datatypes.S (saved_positions l (t1 :: w))) us).
      { apply Forall2_map_l. eapply Forall2_impl; [|exact HF].
        intros. econstructor; eauto. }
      destruct (lmem teq t0 l).
      + exists (u0 :: us). rewrite <- app_assoc. simpl. split; auto.
        constructor; auto. constructor.
      + exists us. split; auto.
  Qed.

  Lemma predict_spec w u0 sv out l :
    predict w u0 sv = Ok out ->
    (forall t, In t l <-> is_saved w sv t) ->
    Forall2 (reach w u0) (saved_positions l w) out.
  Proof.
    intros H Hs. destruct (saved_list w sv) as [l'|] eqn:Hl.
    - rewrite (predict_pw _ _ _ _ Hl) in H.
      assert (Hw : w <> []) by (intros ->; discriminate).
      destruct (pw_spec l' w [] u0 out Hw H) as (us & -> & HF). simpl.
      replace (saved_positions l w) with (saved_positions l' w); auto.
      unfold saved_positions. apply filter_ext. intros k.
      destruct (nth_error w k); auto. apply eq_true_iff_eq. rewrite !lmem_true.
      rewrite Hs. apply saved_list_spec; auto.
    - destruct sv; try discriminate. rewrite predict_SOther in H. discriminate.
  Qed.

  (** with distinct times, predict lists the values of forecast *)
  Lemma fw_pw l w : forall traj u0,
    NoDup w -> (forall t, In t w -> ~ In t (dkeys traj)) ->
    pw l (dvalues traj) w u0 =
    (d <- fw l traj w u0 ;; Ok (dvalues d)).
  Proof.
    induction w as [|t0 w IH]; intros traj u0 Hnd Hdis; [reflexivity|].
    assert (Happ : forall u, ~ In t0 (dkeys traj) ->
              dset teq t0 u traj = traj ++ [(t0, u)]).
    { clear. intros u. induction traj as [|[a b] r IH]; simpl; intros H; auto.
      destruct (teq t0 a) as [->|]; [tauto|]. f_equal. apply IH. tauto. }
    destruct w as [|t1 w].
    - change (pw l (dvalues traj) [t0] u0)
        with (Ok (if lmem teq t0 l then dvalues traj ++ [u0] else dvalues traj)).
      rewrite fw_single. cbn [bind]. destruct (lmem teq t0 l); auto.
      rewrite Happ by (apply Hdis; simpl; auto). unfold dvalues. rewrite map_app. reflexivity.
    - rewrite fw_cons, pw_cons.
      destruct (scheme trend t0 u0 (tsub t1 t0)) as [u1|] eqn:Hs; [|reflexivity].
      cbn [bind]. inversion Hnd; subst. destruct (lmem teq t0 l).
      + rewrite Happ by (apply Hdis; simpl; auto).
        replace (dvalues traj ++ [u0]) with (dvalues (traj ++ [(t0, u0)]))
          by (unfold dvalues; rewrite map_app; reflexivity).
        apply IH; auto. intros t Ht. unfold dkeys. rewrite map_app, in_app_iff. simpl.
        intros [Hi|[<-|[]]]; auto. apply (Hdis t); auto. right; auto.
      + apply IH; auto. intros t Ht. apply Hdis. right; auto.
  Qed.

  Lemma predict_forecast w u0 sv :
    NoDup w -> predict w u0 sv = (d <- forecast w u0 sv ;; Ok (dvalues d)).
  Proof.
    intros Hnd. destruct (saved_list w sv) as [l|] eqn:Hl.
    - rewrite (forecast_fw _ _ _ _ Hl), (predict_pw _ _ _ _ Hl).
      apply (fw_pw l w [] u0); auto.
    - destruct sv; try discriminate. rewrite forecast_SOther, predict_SOther. reflexivity.
  Qed.

  (** ** C02: filtering *)
  Lemma forecast_filter w u0 sv sv' traj :
    sv <> SOther -> sv' <> SOther ->
    forecast w u0 sv = Ok traj ->
    exists traj', forecast w u0 sv' = Ok traj'
      /\ forall t, is_saved w sv t -> is_saved w sv' t -> dget teq t traj' = dget teq t traj.
  Proof.
    intros H1 H2 H. destruct (forecast w u0 sv') as [traj'|e] eqn:E'.
    - exists traj'. split; auto. intros t Ht Ht'.
      destruct (dget teq t traj) as [u|] eqn:G.
      + apply (forecast_values _ _ _ _ H) in G as [_ G].
        apply (forecast_values _ _ _ _ E'). auto.
      + destruct (dget teq t traj') as [u|] eqn:G'; auto.
        apply (forecast_values _ _ _ _ E') in G' as [_ G'].
        assert (dget teq t traj = Some u); [|congruence].
        apply (forecast_values _ _ _ _ H). auto.
    - exfalso. apply forecast_Err in E'.
      assert (G : forecast w u0 sv = Err e); [|congruence].
      apply forecast_Err. destruct E' as [E'|[(_ & E' & _)|[_ E']]]; auto; congruence.
  Qed.

  Lemma forecast_float w u0 t : forecast w u0 (SFloat t) = forecast w u0 (SIter [t]).
  Proof. reflexivity. Qed.

  Lemma forecast_none w u0 : forecast w u0 SNone = forecast w u0 (SIter w).
  Proof. reflexivity. Qed.

  (** ** C04: restart *)
  Lemma fw_app l w1 : forall tm w2 traj u0,
    fw l traj (w1 ++ tm :: w2) u0 =
    (r <- floop (SIter l) (intervals (w1 ++ [tm])) traj u0 ;;
     let '(d, um) := r in fw l d (tm :: w2) um).
  Proof.
    induction w1 as [|t0 w1 IH]; intros tm w2 traj u0; [reflexivity|].
    destruct w1 as [|t1 w1].
    - simpl app. rewrite fw_cons. unfold intervals.
      change (combine (removelast [t0; tm]) (tl [t0; tm])) with [(t0, tm)].
      cbn [forecast_loop py_in bind].
      destruct (scheme trend t0 u0 (tsub tm t0)); reflexivity.
    - simpl app. rewrite fw_cons. unfold intervals.
      change (removelast (t0 :: t1 :: w1 ++ [tm])) with (t0 :: removelast (t1 :: w1 ++ [tm])).
      change (tl (t0 :: t1 :: w1 ++ [tm])) with (t1 :: w1 ++ [tm]).
      simpl combine. cbn [forecast_loop py_in bind].
      destruct (scheme trend t0 u0 (tsub t1 t0)); [|reflexivity].
      cbn [bind]. apply (IH tm w2).
  Qed.

  Lemma reach_app_l w1 tm w2 u0 k u :
    k <= length w1 -> (reach (w1 ++ tm :: w2) u0 k u <-> reach (w1 ++ [tm]) u0 k u).
  Proof.
    revert u0 k. induction w1 as [|t0 w1 IH]; intros u0 k Hk; simpl in *.
    - assert (k = 0) by lia. subst. split; intros H; inversion H; subst; constructor.
    - destruct k as [|k]; [split; intros H; inversion H; subst; constructor|].
      destruct w1 as [|t1 w1]; simpl in *.
      + split; intros H; inversion H; subst; econstructor; eauto; apply IH; auto; lia.
      + split; intros H; inversion H; subst; econstructor; eauto; apply IH; auto; lia.
  Qed.

  Lemma reach_app_r w1 tm w2 u0 um k u :
    reach (w1 ++ [tm]) u0 (length w1) um ->
    (reach (w1 ++ tm :: w2) u0 (length w1 + k) u <-> reach (tm :: w2) um k u).
  Proof.
    revert u0. induction w1 as [|t0 w1 IH]; intros u0 H; simpl in *.
    - inversion H; subst. tauto.
    - destruct w1 as [|t1 w1]; simpl in *.
      + inversion H as [|? ? ? ? v1 ? ? Hs Hr]; subst. rewrite <- (IH v1 Hr).
        split; intros G; [|econstructor; eauto].
        inversion G as [|? ? ? ? v2 ? ? Hs2 Hr2]; subst.
        assert (v1 = v2) by congruence. subst. auto.
      + inversion H as [|? ? ? ? v1 ? ? Hs Hr]; subst. rewrite <- (IH v1 Hr).
        split; intros G; [|econstructor; eauto].
        inversion G as [|? ? ? ? v2 ? ? Hs2 Hr2]; subst.
        assert (v1 = v2) by congruence. subst. auto.
  Qed.

  (** split of a forecast at an intermediate window time *)
  Lemma forecast_restart w1 tm w2 u0 l traj1 um traj2 :
    forecast (w1 ++ [tm]) u0 (SIter l) = Ok traj1 ->
    reach (w1 ++ [tm]) u0 (length w1) um ->
    forecast (tm :: w2) um (SIter l) = Ok traj2 ->
    exists traj, forecast (w1 ++ tm :: w2) u0 (SIter l) = Ok traj
      /\ forall t, dget teq t traj =
           match dget teq t traj2 with Some u => Some u | None => dget teq t traj1 end.
  Proof.
    intros H1 Hr H2.
    destruct (forecast (w1 ++ tm :: w2) u0 (SIter l)) as [traj|e] eqn:E.
    - exists traj. split; auto. intros t.
      destruct (dget teq t traj2) as [u|] eqn:G2.
      + apply (forecast_values _ _ _ _ E). apply (forecast_values _ _ _ _ H2) in G2.
        destruct G2 as [Hs (k & Hk & Lk & Rk)]. split; auto.
        exists (length w1 + k). repeat split.
        * rewrite nth_error_app2 by lia. rewrite Nat.add_comm, Nat.add_sub. exact Hk.
        * intros k' Hlt. rewrite nth_error_app2 by lia. apply Lk. lia.
        * eapply reach_app_r; eauto.
      + destruct (dget teq t traj1) as [u|] eqn:G1.
        * apply (forecast_values _ _ _ _ E). apply (forecast_values _ _ _ _ H1) in G1.
          destruct G1 as [Hs (k & Hk & Lk & Rk)]. split; auto.
          assert (Hnot : ~ In t (tm :: w2)).
          { intros Hin. assert (exists u', last_visit (tm :: w2) um t u') as [u' Hv].
            { clear - Hin H2 Hs G2 teq. 
              apply dget_None in G2. rewrite (forecast_keys _ _ _ _ l H2 (fun _ => iff_refl _)) in G2.
              exfalso. apply G2. unfold firsts. rewrite firsts_from_In.
              split; auto. apply filter_In. split; auto. apply lmem_true. exact Hs. }
            assert (dget teq t traj2 = Some u'); [|congruence].
            apply (forecast_values _ _ _ _ H2). split; auto. }
          assert (Hkl : k < length w1).
          { pose proof (reach_bound _ _ _ _ Rk) as Hb. rewrite app_length in Hb. simpl in Hb.
            destruct (Nat.eq_dec k (length w1)) as [->|]; [|lia].
            rewrite nth_error_app2 in Hk by lia. rewrite Nat.sub_diag in Hk. simpl in Hk.
            inversion Hk; subst. exfalso. apply Hnot. left; auto. }
          exists k. rewrite nth_error_app1 in * by lia. repeat split; auto.
          -- intros k' Hlt Hk'. destruct (Nat.lt_ge_cases k' (length w1)).
             ++ apply (Lk k'); auto. rewrite nth_error_app1 in * by lia. auto.
             ++ rewrite nth_error_app2 in Hk' by lia. apply Hnot. eapply nth_error_In; eauto.
          -- apply reach_app_l; auto. lia.
        * apply dget_None. intros Hin.
          rewrite (forecast_keys _ _ _ _ l E (fun _ => iff_refl _)) in Hin.
          apply firsts_from_In in Hin as [Hin _]. apply filter_In in Hin as [Hin Hl].
          apply dget_None in G1. apply dget_None in G2.
          rewrite (forecast_keys _ _ _ _ l H1 (fun _ => iff_refl _)) in G1.
          rewrite (forecast_keys _ _ _ _ l H2 (fun _ => iff_refl _)) in G2.
          unfold firsts in *. rewrite firsts_from_In, filter_In in G1, G2.
          rewrite in_app_iff in *. simpl in *. tauto.
    - exfalso. apply forecast_Err in E.
      destruct E as [[E _]|[(_ & E & _)|[_ E]]]; [destruct w1; discriminate|discriminate|].
      destruct E as (k & t & t' & u & Hk & Hk' & R & F).
      destruct (Nat.lt_ge_cases k (length w1)) as [Hlt|Hge].
      + assert (G : forecast (w1 ++ [tm]) u0 (SIter l) = Err e); [|congruence].
        apply forecast_Err. right; right. split; [discriminate|].
        exists k, t, t', u. repeat split; auto.
        * rewrite nth_error_app1 in * by lia. auto.
        * destruct (Nat.eq_dec (Datatypes.S k) (length w1)) as [He|Hne].
          -- rewrite nth_error_app2 in * by lia. rewrite He, Nat.sub_diag in *. auto.
          -- rewrite nth_error_app1 in * by lia. auto.
        * apply (reach_app_l w1 tm w2); [lia|exact R].
      + assert (G : forecast (tm :: w2) um (SIter l) = Err e); [|congruence].
        apply forecast_Err. right; right. split; [discriminate|].
        rewrite nth_error_app2 in Hk, Hk' by lia.
        replace (Datatypes.S k - length w1) with (Datatypes.S (k - length w1)) in Hk' by lia.
        exists (k - length w1), t, t', u. repeat split; auto.
        apply (reach_app_r w1 tm w2 u0 um); auto.
        replace (length w1 + (k - length w1)) with k by lia. exact R.
  Qed.
End Proofs.
