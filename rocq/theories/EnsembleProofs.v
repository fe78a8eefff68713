From Coq Require Import List Arith Bool Lia Permutation.
From Verif Require Import PyBase PyBaseFacts ForecastModel ForecastSpec ForecastProofs.
Import ListNotations.
Open Scope py_scope.

Section Pool.
  Context {A B : Type}.
  Variable f : A -> res B.
  Variable chunks : list (list A).
  Notation stp := (pool_step f chunks).

  Definition pool_inv (done : list nat) (s : pool_state (B:=B)) : Prop :=
    length (slots s) = length chunks
    /\ (forall i c, nth_error chunks i = Some c ->
         nth_error (slots s) i =
         Some (if in_dec Nat.eq_dec i done
               then match mapM f c with Ok ys => Some ys | Err _ => None end else None))
    /\ (match failure s with
        | Some e => exists i c, In i done /\ nth_error chunks i = Some c /\ mapM f c = Err e
        | None => forall i c, In i done -> nth_error chunks i = Some c -> exists ys, mapM f c = Ok ys
        end).

  Lemma pool_inv_init : pool_inv [] (pool_init chunks).
  Proof.
    split; [|split].
    - unfold pool_init; simpl. apply map_length.
    - intros i c Hc. unfold pool_init; simpl. rewrite nth_error_map, Hc. reflexivity.
    - simpl. intros i c [].
  Qed.

  Lemma in_dec_cons_ne {X} i j (done : list nat) (a b : X) :
    i <> j ->
    (if in_dec Nat.eq_dec j (i :: done) then a else b)
    = (if in_dec Nat.eq_dec j done then a else b).
  Proof.
    intros. destruct (in_dec Nat.eq_dec j (i :: done)) as [[?|?]|Hn], (in_dec Nat.eq_dec j done);
      try congruence; exfalso; apply Hn; right; auto.
  Qed.

  Lemma in_dec_cons_eq {X} i (done : list nat) (a b : X) :
    (if in_dec Nat.eq_dec i (i :: done) then a else b) = a.
  Proof.
    destruct (in_dec Nat.eq_dec i (i :: done)) as [_|Hn]; auto. exfalso; apply Hn; left; auto.
  Qed.

  Lemma pool_inv_step done s i : pool_inv done s -> pool_inv (i :: done) (stp s i).
  Proof.
    intros (Hlen & Hsl & Hf). unfold pool_step.
    destruct (nth_error chunks i) as [ci|] eqn:Hi.
    - destruct (mapM f ci) as [ys|e] eqn:Hm; (split; [|split]); cbn [slots failure].
      + rewrite set_nth_length. exact Hlen.
      + intros j c Hc. rewrite nth_error_set_nth.
        destruct (Nat.eqb_spec i j) as [->|Hn].
        * rewrite Hc in Hi. inversion Hi; subst.
          assert (j < length (slots s)) by (rewrite Hlen; apply nth_error_Some; congruence).
          apply Nat.ltb_lt in H. rewrite H. rewrite Hm. rewrite in_dec_cons_eq. reflexivity.
        * rewrite (Hsl j c Hc). rewrite in_dec_cons_ne by auto. reflexivity.
      + destruct (failure s).
        * destruct Hf as (j & c & ? & ? & ?). exists j, c. simpl; auto.
        * intros j c [<-|Hj] Hc; eauto. exists ys. congruence.
      + exact Hlen.
      + intros j c Hc. rewrite (Hsl j c Hc). destruct (Nat.eq_dec i j) as [->|].
        * rewrite Hi in Hc. inversion Hc; subst. rewrite Hm. rewrite in_dec_cons_eq.
          destruct (in_dec Nat.eq_dec j done); reflexivity.
        * rewrite in_dec_cons_ne by auto. reflexivity.
      + destruct (failure s).
        * destruct Hf as (j & c & ? & ? & ?). exists j, c. simpl; auto.
        * exists i, ci. simpl; auto.
    - split; [|split]; auto.
      + intros j c Hc. rewrite (Hsl j c Hc). rewrite in_dec_cons_ne; auto. congruence.
      + destruct (failure s).
        * destruct Hf as (j & c & ? & ? & ?). exists j, c. simpl; auto.
        * intros j c [<-|Hj] Hc; eauto. congruence.
  Qed.

  Lemma pool_inv_fold sched : forall done s,
    pool_inv done s -> exists done', pool_inv done' (fold_left stp sched s)
      /\ forall i, In i done' <-> In i done \/ In i sched.
  Proof.
    induction sched as [|i r IH]; intros done s H; simpl.
    - exists done. split; auto. tauto.
    - destruct (IH (i :: done) (stp s i)) as (d' & Hd & He).
      + apply pool_inv_step; auto.
      + exists d'. split; auto. intros j. rewrite He. simpl. tauto.
  Qed.

  Lemma collect_spec cs (sl : list (option (list B))) :
    length sl = length cs ->
    (forall i c, nth_error cs i = Some c ->
       exists ys, mapM f c = Ok ys /\ nth_error sl i = Some (Some ys)) ->
    exists out, collect sl = Some out /\ mapM f (concat cs) = Ok out.
  Proof.
    revert sl. induction cs as [|c cs IH]; intros sl Hlen H.
    - destruct sl; [|discriminate]. exists []. auto.
    - destruct sl as [|o sl]; [discriminate|].
      destruct (H 0 c eq_refl) as (ys & Hm & Ho). simpl in Ho. inversion Ho; subst.
      destruct (IH sl) as (out & Hc & Ho').
      + simpl in Hlen; lia.
      + intros i c' Hi. apply (H (S i) c' Hi).
      + simpl. rewrite Hc. exists (ys ++ out). split; auto.
        rewrite mapM_app, Hm, Ho'. reflexivity.
  Qed.

  Lemma pool_map_spec sched :
    Permutation sched (seq 0 (length chunks)) ->
    exists r, pool_map f chunks sched = Some r
      /\ match mapM f (concat chunks) with
         | Ok l => r = Ok l
         | Err _ => exists e x, r = Err e /\ In x (concat chunks) /\ f x = Err e
         end.
  Proof.
    intros Hp. unfold pool_map.
    destruct (pool_inv_fold sched [] (pool_init chunks) pool_inv_init) as (done & Hinv & Hd).
    set (s := fold_left stp sched (pool_init chunks)) in *.
    destruct Hinv as (Hlen & Hsl & Hf).
    assert (Hall : forall i c, nth_error chunks i = Some c -> In i done).
    { intros i c Hi. apply Hd. right. eapply Permutation_in; [symmetry; exact Hp|].
      apply in_seq. split; [lia|]. simpl. apply nth_error_Some. congruence. }
    destruct (failure s) as [e|].
    - destruct Hf as (i & c & Hi & Hc & He).
      assert (Hl : Nat.leb (length chunks) (length sched) = true).
      { apply Nat.leb_le. rewrite (Permutation_length Hp), seq_length. lia. }
      rewrite Hl. exists (Err e). split; auto.
      apply mapM_Err in He as (l1 & x & l2 & -> & Hx & _).
      assert (Hin : In x (concat chunks)).
      { apply in_concat. exists (l1 ++ x :: l2). split; [eapply nth_error_In; eauto|].
        apply in_app_iff. right; left; auto. }
      destruct (mapM f (concat chunks)) as [l|e'] eqn:E.
      + exfalso. apply mapM_Ok_Forall2 in E. clear - E Hin Hx.
        induction E; simpl in Hin; [tauto|]. destruct Hin as [->|Hin]; auto. congruence.
      + exists e, x. auto.
    - destruct (collect_spec chunks (slots s) Hlen) as (out & Hc & Hm).
      + intros i c Hi. destruct (Hf i c (Hall i c Hi) Hi) as [ys Hy].
        exists ys. split; auto. rewrite (Hsl i c Hi).
        destruct (in_dec Nat.eq_dec i done) as [_|Hn]; [rewrite Hy; auto|].
        exfalso. apply Hn. eapply Hall; eauto.
      + rewrite Hc, Hm. exists (Ok out). auto.
  Qed.
End Pool.

Section Ens.
  Context {T D S TR : Type}.
  Variable teq : forall a b : T, {a = b} + {a <> b}.
  Variable tsub : T -> T -> D.
  Variable scheme : TR -> T -> S -> D -> res S.
  Variable trend : TR.
  Notation forecast := (forecast teq tsub scheme trend).
  Notation ensemble_seq := (ensemble_seq teq tsub scheme trend).
  Notation ensemble_par := (ensemble_par teq tsub scheme trend).

  Lemma append_fold fc ks : forall (d : dict T (list S)),
    NoDup ks -> (forall k, In k ks -> In k (dkeys d) /\ In k (dkeys fc)) ->
    exists d', foldM (fun d time =>
             l <- dgetE teq time d ;;
             u <- dgetE teq time fc ;;
             Ok (dset teq time (l ++ [u]) d)) d ks = Ok d'
      /\ dkeys d' = dkeys d
      /\ forall t l, dget teq t d = Some l ->
           dget teq t d' = Some (l ++ if in_dec teq t ks then
                                       match dget teq t fc with Some u => [u] | None => [] end
                                      else []).
  Proof.
    induction ks as [|k ks IH]; intros d Hnd Hk.
    - exists d. simpl. repeat split; auto. intros t l ->. rewrite app_nil_r. reflexivity.
    - inversion Hnd; subst. destruct (Hk k (or_introl eq_refl)) as [Hd Hf].
      destruct (dget_key_ex teq k d Hd) as [l0 Hl0].
      destruct (dget_key_ex teq k fc Hf) as [u Hu].
      simpl foldM. unfold dgetE at 1 2. rewrite Hl0, Hu. cbn [bind].
      destruct (IH (dset teq k (l0 ++ [u]) d)) as (d' & E & Kd & Gd); auto.
      + intros k' Hk'. rewrite dset_same_keys by auto. apply Hk. right; auto.
      + exists d'. split; [exact E|]. rewrite Kd, dset_same_keys by auto. split; auto.
        intros t l Hl. cbn [in_dec].
        destruct (teq t k) as [->|Hn].
        * rewrite (Gd k (l0 ++ [u])) by apply dget_dset_same.
          destruct (in_dec teq k ks); [tauto|].
          destruct (in_dec teq k (k :: ks)) as [_|Hi]; [|exfalso; apply Hi; left; auto].
          rewrite Hu. rewrite app_nil_r. congruence.
        * rewrite (Gd t l) by (rewrite dget_dset_other; congruence).
          destruct (in_dec teq t ks), (in_dec teq t (k :: ks)) as [Hi|Hi]; auto.
          -- exfalso. apply Hi. right; auto.
          -- exfalso. destruct Hi; congruence || auto.
  Qed.

  (** the values a time takes in successive forecasts *)
  Definition column (t : T) (fcs : list (dict T S)) : list S :=
    flat_map (fun fc => match dget teq t fc with Some u => [u] | None => [] end) fcs.

  Lemma append_all_spec (d : dict T (list S)) fc :
    NoDup (dkeys fc) -> incl (dkeys fc) (dkeys d) ->
    exists d', append_all teq d fc = Ok d' /\ dkeys d' = dkeys d
      /\ forall t l, dget teq t d = Some l ->
           dget teq t d' = Some (l ++ match dget teq t fc with Some u => [u] | None => [] end).
  Proof.
    intros Hnd Hi. unfold append_all.
    destruct (append_fold fc (dkeys fc) d Hnd) as (d' & E & K & G).
    - intros k Hk. split; auto.
    - exists d'. split; [exact E|]. split; auto. intros t l Hl. rewrite (G t l Hl).
      destruct (in_dec teq t (dkeys fc)) as [|Hn]; auto.
      apply (dget_None teq) in Hn. rewrite Hn. reflexivity.
  Qed.

  Lemma append_list_spec fcs : forall (d : dict T (list S)),
    (forall fc, In fc fcs -> NoDup (dkeys fc) /\ incl (dkeys fc) (dkeys d)) ->
    exists d', foldM (append_all teq) d fcs = Ok d' /\ dkeys d' = dkeys d
      /\ forall t l, dget teq t d = Some l -> dget teq t d' = Some (l ++ column t fcs).
  Proof.
    induction fcs as [|fc fcs IH]; intros d H.
    - exists d. simpl. repeat split; auto. intros t l ->. rewrite app_nil_r. auto.
    - destruct (H fc (or_introl eq_refl)) as [Hnd Hi].
      destruct (append_all_spec d fc Hnd Hi) as (d1 & E1 & K1 & G1).
      simpl. rewrite E1. cbn [bind]. destruct (IH d1) as (d2 & E2 & K2 & G2).
      + intros fc' Hf. rewrite K1. apply H. right; auto.
      + exists d2. split; auto. split; [congruence|]. intros t l Hl.
        rewrite (G2 t _ (G1 t l Hl)). rewrite <- app_assoc. reflexivity.
  Qed.

  Lemma init_keys l : forall d : dict T (list S),
    dkeys (fold_left (fun d time => dset teq time [] d) l d)
    = dkeys d ++ firsts_from teq (dkeys d) l.
  Proof.
    induction l as [|x r IH]; intros d; simpl; [rewrite app_nil_r; auto|].
    rewrite IH, dkeys_dset. destruct (in_dec teq x (dkeys d)); auto.
    rewrite <- app_assoc. simpl. f_equal. f_equal.
    apply firsts_from_ext. intros y _. rewrite in_app_iff. simpl. tauto.
  Qed.

  Lemma init_vals l : forall d : dict T (list S),
    (forall t v, dget teq t d = Some v -> v = []) ->
    forall t v, dget teq t (fold_left (fun d time => dset teq time [] d) l d) = Some v -> v = [].
  Proof.
    induction l as [|x r IH]; intros d H t v; simpl; [apply H|].
    apply IH. intros t' v'. rewrite dget_dset. destruct (teq t' x); [congruence|apply H].
  Qed.

  (** keys of a member forecast are keys of the ensemble dictionary *)
  Lemma forecast_keys_incl w st (l : list T) fc (d : dict T (list S)) :
    forecast w st (SIter l) = Ok fc -> dkeys d = firsts teq l -> incl (dkeys fc) (dkeys d).
  Proof.
    intros H Hd t Ht. rewrite Hd. rewrite (forecast_keys _ _ _ _ _ _ _ _ l H) in Ht.
    2:{ intros; reflexivity. }
    apply firsts_from_In in Ht as [Ht _]. apply filter_In in Ht as [_ Ht].
    apply lmem_true in Ht. apply firsts_from_In. auto.
  Qed.

  Lemma ensemble_seq_mapM w states (l : list T) f0 :
    dkeys f0 = firsts teq l ->
    foldM (fun d state => fc <- forecast w state (SIter l) ;; append_all teq d fc) f0 states
    = (fcs <- mapM (fun state => forecast w state (SIter l)) states ;;
       foldM (append_all teq) f0 fcs).
  Proof.
    revert f0. induction states as [|st r IH]; intros f0 Hk; [reflexivity|].
    simpl foldM. simpl mapM. destruct (forecast w st (SIter l)) as [fc|e] eqn:E; [|reflexivity].
    cbn [bind]. destruct (append_all_spec f0 fc) as (d1 & E1 & K1 & _).
    - eapply forecast_keys_NoDup; eauto.
    - eapply forecast_keys_incl; eauto.
    - rewrite E1. cbn [bind]. rewrite IH by congruence.
      destruct (mapM _ r) as [fcs|]; [|reflexivity]. cbn [bind]. simpl. rewrite E1. reflexivity.
  Qed.

  Lemma check_idem (w w' : list T) sv :
    check_saved_times w' (check_saved_times w sv) = check_saved_times w sv \/ sv = SOther.
  Proof. destruct sv; simpl; auto. Qed.

  Lemma check_iter (w : list T) sv l :
    saved_list w sv = Some l -> check_saved_times w sv = SIter l.
  Proof. destruct sv; simpl; intros H; inversion H; reflexivity. Qed.

  (** Full description of the sequential ensemble forecast *)
  Lemma ensemble_seq_eq w states sv l :
    saved_list w sv = Some l ->
    exists f0, dkeys f0 = firsts teq l /\ (forall t v, dget teq t f0 = Some v -> v = []) /\
    init_forecasts teq (SIter l) = Ok f0 /\
    ensemble_seq w states sv =
      (fcs <- mapM (fun state => forecast w state (SIter l)) states ;;
       foldM (append_all teq) f0 fcs).
  Proof.
    intros Hl. exists (fold_left (fun d time => dset teq time [] d) l []).
    assert (K : dkeys (fold_left (fun d time => dset teq time (@nil S) d) l [])
            = firsts teq l) by (rewrite init_keys; reflexivity).
    repeat split; auto.
    - apply init_vals. simpl. congruence.
    - unfold ForecastModel.ensemble_seq. rewrite (check_iter _ _ _ Hl). cbn [init_forecasts bind].
      apply ensemble_seq_mapM. exact K.
  Qed.

  Lemma ensemble_seq_spec w states sv l :
    saved_list w sv = Some l ->
    match mapM (fun state => forecast w state sv) states with
    | Err e => ensemble_seq w states sv = Err e
    | Ok fcs => exists d, ensemble_seq w states sv = Ok d
        /\ dkeys d = firsts teq l
        /\ forall t, In t l -> dget teq t d = Some (column t fcs)
    end.
  Proof.
    intros Hl. destruct (ensemble_seq_eq w states sv l Hl) as (f0 & K & V & _ & ->).
    assert (EX : mapM (fun state => forecast w state sv) states
               = mapM (fun state => forecast w state (SIter l)) states).
    { apply mapM_ext. intros st _. rewrite (forecast_fw _ _ _ _ w st sv l Hl).
      symmetry. apply forecast_fw. reflexivity. }
    rewrite EX. clear EX. destruct (mapM _ states) as [fcs|e] eqn:E; [|reflexivity].
    cbn [bind]. destruct (append_list_spec fcs f0) as (d & E1 & K1 & G1).
    - intros fc Hfc. apply mapM_Ok_Forall2 in E.
      assert (exists st, forecast w st (SIter l) = Ok fc) as [st Hst].
      { clear - E Hfc. induction E; simpl in *; [tauto|]. destruct Hfc as [->|]; eauto. }
      split; [eapply forecast_keys_NoDup; eauto|eapply forecast_keys_incl; eauto].
    - exists d. split; auto. split; [congruence|]. intros t Ht.
      assert (Hin : In t (dkeys f0)) by (rewrite K; apply firsts_from_In; auto).
      destruct (dget_key_ex teq t f0 Hin) as [v Hv].
      rewrite (G1 t v Hv). rewrite (V t v Hv). reflexivity.
  Qed.

  Lemma ensemble_seq_SOther w states : ensemble_seq w states SOther = Err TypeError.
  Proof. reflexivity. Qed.

  (** column = one entry per member when the time is in the window, else empty *)
  Lemma column_in w sv states fcs t :
    mapM (fun state => forecast w state sv) states = Ok fcs ->
    is_saved w sv t -> In t w ->
    Forall2 (fun st u => exists fc, forecast w st sv = Ok fc /\ dget teq t fc = Some u)
            states (column t fcs).
  Proof.
    intros H Hs Hw. apply mapM_Ok_Forall2 in H. induction H as [|st fc r fcs Hf Hr IH].
    - constructor.
    - simpl. assert (exists u, dget teq t fc = Some u) as [u Hu].
      { apply dget_key_ex. destruct (saved_list w sv) as [l|] eqn:Hl.
        - rewrite (forecast_keys _ _ _ _ _ _ _ _ l Hf).
          + apply firsts_from_In. split; auto. apply filter_In. split; auto.
            apply lmem_true. apply (saved_list_spec _ _ _ t Hl). auto.
          + intros t'. apply saved_list_spec; auto.
        - destruct sv; try discriminate. destruct Hs. }
      rewrite Hu. simpl. constructor; auto. exists fc. auto.
  Qed.

  Lemma column_notin w sv states fcs t :
    mapM (fun state => forecast w state sv) states = Ok fcs ->
    ~ In t w -> column t fcs = [].
  Proof.
    intros H Hw. apply mapM_Ok_Forall2 in H. induction H as [|st fc r fcs Hf Hr IH]; auto.
    simpl. rewrite IH, app_nil_r. destruct (dget teq t fc) as [u|] eqn:E; auto.
    apply (forecast_values _ _ _ _ _ _ _ _ Hf) in E as [_ E].
    apply last_visit_In in E. tauto.
  Qed.

  (** parallel = sequential *)
  Lemma ensemble_par_spec w sv chunks sched :
    Permutation sched (seq 0 (length chunks)) ->
    exists r, ensemble_par w sv chunks sched = Some r
      /\ match ensemble_seq w (concat chunks) sv with
         | Ok d => r = Ok d
         | Err e => sv = SOther /\ r = Err e
             \/ exists st e', In st (concat chunks) /\ forecast w st sv = Err e' /\ r = Err e'
         end.
  Proof.
    intros Hp. destruct (saved_list w sv) as [l|] eqn:Hl.
    - destruct (ensemble_seq_eq w (concat chunks) sv l Hl) as (f0 & K & V & Hi & ->).
      unfold ForecastModel.ensemble_par. rewrite (check_iter _ _ _ Hl), Hi.
      destruct (pool_map_spec (fun state => forecast w state (SIter l)) chunks sched Hp)
        as (r & -> & Hr).
      destruct (mapM _ (concat chunks)) as [fcs|e] eqn:E.
      + subst r. eexists. split; [reflexivity|]. cbn [bind].
        destruct (append_list_spec fcs f0) as (d & -> & _).
        * intros fc Hfc. apply mapM_Ok_Forall2 in E.
          assert (exists st, forecast w st (SIter l) = Ok fc) as [st Hst].
          { clear - E Hfc. induction E; simpl in *; [tauto|]. destruct Hfc as [->|]; eauto. }
          split; [eapply forecast_keys_NoDup; eauto|eapply forecast_keys_incl; eauto].
        * reflexivity.
      + destruct Hr as (e' & st & -> & Hin & He). eexists. split; [reflexivity|].
        cbn [bind]. right. exists st, e'. repeat split; auto.
        rewrite (forecast_fw _ _ _ _ w st sv l Hl). exact He.
    - destruct sv; try discriminate. exists (Err TypeError). split; [reflexivity|].
      rewrite ensemble_seq_SOther. auto.
  Qed.
End Ens.
