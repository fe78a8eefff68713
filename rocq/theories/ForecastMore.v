(** Corollaries used by the property file. *)
From Coq Require Import List Arith Bool Lia Permutation.
From Verif Require Import PyBase PyBaseFacts ForecastModel ForecastSpec ForecastProofs EnsembleProofs.
Import ListNotations.
Open Scope py_scope.

Lemma lmem_in_dec {T} (teq : forall a b : T, {a=b}+{a<>b}) x l :
  lmem teq x l = if in_dec teq x l then true else false.
Proof.
  destruct (in_dec teq x l); [apply lmem_true; auto|].
  destruct (lmem teq x l) eqn:E; auto. apply lmem_true in E. tauto.
Qed.

Lemma filter_ext' {A} (f g : A -> bool) l : (forall a, f a = g a) -> filter f l = filter g l.
Proof. intros H. induction l; simpl; auto. rewrite H, IHl. auto. Qed.

Section More.
  Context {T D S TR : Type}.
  Variable teq : forall a b : T, {a = b} + {a <> b}.
  Variable tsub : T -> T -> D.
  Variable scheme : TR -> T -> S -> D -> res S.
  Variable trend : TR.
  Notation forecast := (forecast teq tsub scheme trend).
  Notation predict := (predict teq tsub scheme trend).
  Notation ensemble_seq := (ensemble_seq teq tsub scheme trend).
  Notation ensemble_par := (ensemble_par teq tsub scheme trend).

  Lemma forecast_keys_full w u0 sv traj :
    forecast w u0 sv = Ok traj ->
    forall l, (forall t, In t l <-> is_saved w sv t) ->
    dkeys traj = firsts teq (filter (fun t => if in_dec teq t l then true else false) w)
    /\ NoDup (dkeys traj)
    /\ (forall t, In t (dkeys traj) <-> In t w /\ is_saved w sv t).
  Proof.
    intros H l Hl. pose proof (forecast_keys _ _ _ _ _ _ _ _ l H Hl) as K.
    rewrite (filter_ext' _ _ w (fun t => lmem_in_dec teq t l)) in K.
    split; [exact K|]. split; [eapply forecast_keys_NoDup; eauto|].
    intros t. rewrite K. unfold firsts. rewrite firsts_from_In, filter_In, <- Hl.
    destruct (in_dec teq t l); simpl; intuition congruence.
  Qed.

  Lemma forecast_restriction w u0 sv traj full :
    forecast w u0 sv = Ok traj -> forecast w u0 SNone = Ok full ->
    forall t u, dget teq t traj = Some u <-> is_saved w sv t /\ dget teq t full = Some u.
  Proof.
    intros H1 H2 t u. rewrite (forecast_values _ _ _ _ _ _ _ _ H1).
    rewrite (forecast_values _ _ _ _ _ _ _ _ H2). simpl.
    split; [|tauto]. intros [H Hv]. repeat split; auto. eapply last_visit_In; eauto.
  Qed.

  Lemma predict_rows w u0 sv out l :
    predict w u0 sv = Ok out ->
    (forall t, In t l <-> is_saved w sv t) ->
    Forall2 (reach tsub scheme trend w u0)
      (filter (fun k => match nth_error w k with
                        | Some t => if in_dec teq t l then true else false
                        | None => false end) (seq 0 (length w))) out.
  Proof.
    intros H Hl. pose proof (predict_spec _ _ _ _ _ _ _ _ _ H Hl) as P.
    unfold saved_positions in P.
    erewrite (filter_ext' _ _ (seq 0 (length w))) in P; [exact P|]. intros k. simpl.
    destruct (nth_error w k); auto; rewrite lmem_in_dec; reflexivity.
  Qed.

  Lemma ensemble_schedule w sv states d :
    ensemble_seq w states sv = Ok d ->
    forall chunks sched, concat chunks = states ->
      Permutation sched (seq 0 (length chunks)) ->
      ensemble_par w sv chunks sched = Some (Ok d).
  Proof.
    intros H chunks sched <- Hp.
    destruct (ensemble_par_spec teq tsub scheme trend w sv chunks sched Hp) as (r & Hr & Hm).
    rewrite H in Hm. congruence.
  Qed.

  Lemma saved_list_Some (w : list T) sv : sv <> SOther -> exists l, saved_list w sv = Some l.
  Proof. destruct sv; simpl; eauto. congruence. Qed.

  Lemma ensemble_ok_inv w sv states d :
    ensemble_seq w states sv = Ok d ->
    exists l fcs, saved_list w sv = Some l /\ mapM (fun st => forecast w st sv) states = Ok fcs
      /\ dkeys d = firsts teq l
      /\ forall t, In t l -> dget teq t d = Some (column teq t fcs).
  Proof.
    intros H. destruct (saved_list w sv) as [l|] eqn:Hl.
    - pose proof (ensemble_seq_spec teq tsub scheme trend w states sv l Hl) as G.
      destruct (mapM _ states) as [fcs|e].
      + destruct G as (d' & E & K & G). rewrite H in E. inversion E; subst d'. eauto 8.
      + congruence.
    - destruct sv; try discriminate.
  Qed.

  Lemma ensemble_memberwise w sv states d t :
    ensemble_seq w states sv = Ok d -> In t w -> is_saved w sv t ->
    exists l, dget teq t d = Some l
      /\ Forall2 (fun st u => exists fc, forecast w st sv = Ok fc /\ dget teq t fc = Some u)
                 states l.
  Proof.
    intros H Hw Hs. apply ensemble_ok_inv in H as (l & fcs & Hl & Hm & _ & G).
    exists (column teq t fcs). split.
    - apply G. apply (saved_list_spec _ _ _ t Hl). auto.
    - eapply column_in; eauto.
  Qed.

  Lemma ensemble_failure w sv chunks sched e :
    Permutation sched (seq 0 (length chunks)) ->
    ensemble_seq w (concat chunks) sv = Err e ->
    exists e', ensemble_par w sv chunks sched = Some (Err e')
      /\ (sv = SOther /\ e' = TypeError
          \/ exists st, In st (concat chunks) /\ forecast w st sv = Err e').
  Proof.
    intros Hp H. destruct (ensemble_par_spec teq tsub scheme trend w sv chunks sched Hp)
      as (r & Hr & Hm). rewrite H in Hm.
    destruct Hm as [[-> ->]|(st & e' & Hi & Hf & ->)].
    - exists e. split; auto. left. split; auto. rewrite ensemble_seq_SOther in H. congruence.
    - exists e'. split; auto. right. eauto.
  Qed.

  Lemma mapM_all {A B} (f : A -> res B) l :
    (exists ys, mapM f l = Ok ys) <-> forall x, In x l -> exists y, f x = Ok y.
  Proof.
    induction l as [|x l IH]; simpl.
    - split; [tauto|eauto].
    - split.
      + intros [ys H] z [->|Hz].
        * destruct (f z); [eauto|discriminate].
        * destruct (f x); [|discriminate]. simpl in H.
          destruct (mapM f l) as [ys'|] eqn:E; [|discriminate].
          apply IH; eauto.
      + intros H. destruct (H x (or_introl eq_refl)) as [y Hy]. rewrite Hy.
        destruct IH as [_ IH]. destruct IH as [ys Hys]; [intros; apply H; auto|].
        simpl. rewrite Hys. simpl. eauto.
  Qed.

  Lemma ensemble_ok_iff w sv states :
    sv <> SOther ->
    ((exists d, ensemble_seq w states sv = Ok d)
     <-> forall st, In st states -> exists fc, forecast w st sv = Ok fc).
  Proof.
    intros Hs. destruct (saved_list_Some w sv Hs) as [l Hl].
    pose proof (ensemble_seq_spec teq tsub scheme trend w states sv l Hl) as G.
    rewrite <- mapM_all. destruct (mapM _ states) as [fcs|e].
    - destruct G as (d & E & _). split; eauto.
    - rewrite G. split; intros [? ?]; discriminate.
  Qed.

  Lemma ensemble_keys w states sv d l :
    saved_list w sv = Some l -> ensemble_seq w states sv = Ok d ->
    dkeys d = firsts teq l
    /\ (forall t, In t l -> In t w -> exists v, dget teq t d = Some v /\ length v = length states)
    /\ (forall t, In t l -> ~ In t w -> dget teq t d = Some []).
  Proof.
    intros Hl H. apply ensemble_ok_inv in H as (l' & fcs & Hl' & Hm & Kd & G).
    rewrite Hl in Hl'. inversion Hl'; subst l'. split; auto. split.
    - intros t Ht Hw. exists (column teq t fcs). split; auto.
      assert (F := column_in teq tsub scheme trend w sv states fcs t Hm
                     (proj1 (saved_list_spec _ _ _ t Hl) Ht) Hw).
      clear - F. induction F; simpl; auto.
    - intros t Ht Hw. rewrite (G t Ht). apply f_equal. eapply column_notin; eauto.
  Qed.
End More.
