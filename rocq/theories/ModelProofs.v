(** Whole-forecast consequences of the scheme lemmas. *)
From Coq Require Import List Arith Bool Lia Permutation Field Ring FunctionalExtensionality.
From Verif Require Import PyBase PyBaseFacts Scalars SchemesModel SchemesSpec SchemesProofs
  ForecastModel ForecastSpec ForecastProofs EnsembleProofs.
Import ListNotations.
Open Scope py_scope.

(** ** simulation between two models *)
Section Sim.
  Context {T D S1 S2 TR1 TR2 : Type}.
  Variable teq : forall a b : T, {a = b} + {a <> b}.
  Variable tsub : T -> T -> D.
  Variable sch1 : TR1 -> T -> S1 -> D -> res S1.
  Variable tr1 : TR1.
  Variable sch2 : TR2 -> T -> S2 -> D -> res S2.
  Variable tr2 : TR2.
  Variable R : S1 -> S2 -> Prop.

  Definition res_rel {A B} (Q : A -> B -> Prop) (a : res A) (b : res B) : Prop :=
    match a, b with
    | Ok x, Ok y => Q x y
    | Err e, Err e' => e = e'
    | _, _ => False
    end.

  Definition entry_rel (p : T * S1) (q : T * S2) : Prop := fst p = fst q /\ R (snd p) (snd q).

  Hypothesis step_rel : forall t u v d, R u v -> res_rel R (sch1 tr1 t u d) (sch2 tr2 t v d).

  Lemma dset_rel t u v d1 d2 :
    R u v -> Forall2 entry_rel d1 d2 -> Forall2 entry_rel (dset teq t u d1) (dset teq t v d2).
  Proof.
    intros Hr. induction 1 as [|[a x] [b y] d1 d2 [E E'] HF IH]; simpl.
    - constructor; [split; auto|constructor].
    - simpl in E. subst b. destruct (teq t a); constructor; auto; split; auto.
  Qed.

  Lemma fw_sim l w : forall d1 d2 u v,
    R u v -> Forall2 entry_rel d1 d2 ->
    res_rel (Forall2 entry_rel)
      (fw teq tsub sch1 tr1 l d1 w u) (fw teq tsub sch2 tr2 l d2 w v).
  Proof.
    induction w as [|t0 w IH]; intros d1 d2 u v Hr Hd; [reflexivity|].
    destruct w as [|t1 w].
    - rewrite !fw_single. simpl. destruct (lmem teq t0 l); auto. apply dset_rel; auto.
    - rewrite !fw_cons. pose proof (step_rel t0 u v (tsub t1 t0) Hr) as Hs.
      destruct (sch1 tr1 t0 u _), (sch2 tr2 t0 v _); simpl in Hs; try tauto; cbn [bind].
      apply IH; auto. destruct (lmem teq t0 l); auto. apply dset_rel; auto.
  Qed.

  Lemma forecast_sim w sv u v :
    R u v ->
    res_rel (Forall2 entry_rel)
      (forecast teq tsub sch1 tr1 w u sv) (forecast teq tsub sch2 tr2 w v sv).
  Proof.
    intros Hr. destruct (saved_list w sv) as [l|] eqn:Hl.
    - rewrite !(forecast_fw _ _ _ _ _ _ _ _ Hl). apply fw_sim; auto. 
    - destruct sv; try discriminate. rewrite !forecast_SOther. reflexivity.
  Qed.
End Sim.

(** ** total schemes *)
Section Total.
  Context {T D S TR : Type}.
  Variable teq : forall a b : T, {a = b} + {a <> b}.
  Variable tsub : T -> T -> D.
  Variable scheme : TR -> T -> S -> D -> res S.
  Variable trend : TR.
  Hypothesis total : forall t u d, exists v, scheme trend t u d = Ok v.

  Lemma forecast_total w u0 sv :
    w <> [] -> sv <> SOther -> exists traj, forecast teq tsub scheme trend w u0 sv = Ok traj.
  Proof.
    intros Hw Hs. destruct (forecast teq tsub scheme trend w u0 sv) as [d|e] eqn:E; eauto.
    apply forecast_Err in E as [[E _]|[(_ & E & _)|[_ E]]]; try congruence.
    destruct E as (k & t & t' & u & _ & _ & _ & F).
    destruct (total t u (tsub t' t)) as [v Hv]. congruence.
  Qed.

  Lemma forecast_get w u0 sv traj t :
    forecast teq tsub scheme trend w u0 sv = Ok traj ->
    is_saved w sv t -> In t w -> exists u, dget teq t traj = Some u.
  Proof.
    intros H Hs Hw. apply dget_key_ex.
    destruct (saved_list w sv) as [l|] eqn:Hl.
    - rewrite (forecast_keys _ _ _ _ _ _ _ _ l H).
      + apply firsts_from_In. split; auto. apply filter_In. split; auto.
        apply lmem_true. apply (saved_list_spec _ _ _ t Hl). auto.
      + intros t'. apply saved_list_spec; auto.
    - destruct sv; try discriminate. destruct Hs.
  Qed.
End Total.

(** ** any completed run of the parallel ensemble *)
Section Pool.
  Context {T D S TR : Type}.
  Variable teq : forall a b : T, {a = b} + {a <> b}.
  Variable tsub : T -> T -> D.
  Variable scheme : TR -> T -> S -> D -> res S.
  Variable trend : TR.

  (** [ens] is the result of [ensemble_forecast(parallel=True)] for some chunking and
      completion order *)
  Definition pool_ens (ens : list T -> list S -> saved T -> res (dict T (list S))) : Prop :=
    forall w sts sv, exists chunks sched,
      concat chunks = sts /\ Permutation sched (seq 0 (length chunks)) /\
      ensemble_par teq tsub scheme trend w sv chunks sched = Some (ens w sts sv).

  Lemma pool_ens_Ok ens w sts sv d :
    pool_ens ens -> ensemble_seq teq tsub scheme trend w sts sv = Ok d ->
    ens w sts sv = Ok d.
  Proof.
    intros H E. destruct (H w sts sv) as (chunks & sched & <- & Hp & Hr).
    destruct (ensemble_par_spec teq tsub scheme trend w sv chunks sched Hp) as (r & Hr' & Hm).
    rewrite E in Hm. congruence.
  Qed.
End Pool.

(** ** forecast_tl: the quotient loop *)
Section TL.
  Context {T S : Type}.
  Variable teq : forall a b : T, {a = b} + {a <> b}.
  Variable quot : S -> S -> S.

  Lemma tl_loop fc l : forall (d : dict T (list S)),
    NoDup l ->
    (forall q, In q l -> exists lst, dget teq q d = Some lst
        /\ (lst = [] \/ exists r, dget teq q fc = Some r)) ->
    exists d', foldM (fun d q =>
                 lst <- dgetE teq q d ;;
                 lst' <- mapM (fun st => r <- dgetE teq q fc ;; Ok (quot st r)) lst ;;
                 Ok (dset teq q lst' d)) d l = Ok d'
      /\ dkeys d' = dkeys d
      /\ (forall q lst, In q l -> dget teq q d = Some lst ->
           dget teq q d' = Some (match dget teq q fc with
                                 | Some r => map (fun st => quot st r) lst | None => [] end))
      /\ (forall q, ~ In q l -> dget teq q d' = dget teq q d).
  Proof.
    induction l as [|q l IH]; intros d Hnd H.
    - exists d. simpl. repeat split; auto. tauto.
    - inversion Hnd; subst. destruct (H q (or_introl eq_refl)) as (lst & Hl & Hr).
      set (lst' := match dget teq q fc with
                   | Some r => map (fun st => quot st r) lst | None => [] end).
      assert (Hm : mapM (fun st => r <- dgetE teq q fc ;; Ok (quot st r)) lst = Ok lst').
      { unfold lst', dgetE. destruct (dget teq q fc) as [r|] eqn:Ef.
        - apply (mapM_Ok _ (fun st => quot st r)). auto.
        - destruct Hr as [->|[r Hr]]; [reflexivity|congruence]. }
      assert (Hq : In q (dkeys d)) by (eapply dget_Some_key; eauto).
      destruct (IH (dset teq q lst' d)) as (d' & E & Kd & G1 & G2); auto.
      + intros q' Hq'. destruct (H q' (or_intror Hq')) as (l' & Hl' & Hr').
        exists l'. rewrite dget_dset_other by congruence. auto.
      + exists d'. cbn [foldM]. unfold dgetE at 1. rewrite Hl. cbn [bind].
        rewrite Hm. cbn [bind]. split; [exact E|].
        rewrite Kd, dset_same_keys by auto. split; auto. split.
        * intros q' l0 [<-|Hq'] Hl0.
          -- rewrite G2 by auto. rewrite dget_dset_same. rewrite Hl in Hl0. inversion Hl0; subst. reflexivity.
          -- apply G1; auto. rewrite dget_dset_other by congruence. auto.
        * intros q' Hn. simpl in Hn. rewrite G2 by tauto. apply dget_dset_other. tauto.
  Qed.
End TL.

Section Fields.
  Variable K : Fld.
  Add Field Kf2 : (f_th K).
  Open Scope fld_scope.
  Variable keq : forall a b : K, {a = b} + {a <> b}.
  Notation fcast s f := (forecast keq fsub (onestep_fun s) f).

  (** intertwined forecasts *)
  Lemma forecast_natural {I J} s (P : arr K I -> arr K J) (f : @trendT K I) (g : @trendT K J) :
    linear P ->
    (forall t u, g t (P u) = (v <- f t u ;; Ok (P v))) ->
    forall w u0 sv,
      fcast s g w (P u0) sv =
      (d <- fcast s f w u0 sv ;; Ok (map (fun p => (fst p, P (snd p))) d)).
  Proof.
    intros HP H w u0 sv.
    pose proof (forecast_sim keq fsub (onestep_fun s) f (onestep_fun s) g
                  (fun u v => v = P u)) as Hs.
    specialize (Hs ltac:(intros t u v d ->; rewrite (step_natural K s P f g HP H);
       destruct (onestep_fun s f t u d); simpl; auto) w sv u0 (P u0) eq_refl).
    destruct (fcast s f w u0 sv) as [d|e], (fcast s g w (P u0) sv) as [d'|e'];
      simpl in Hs; try tauto; simpl; [|subst; reflexivity].
    apply f_equal. induction Hs as [|[a x] [b y] d d' [E1 E2] HF IH]; auto.
    simpl in *. subst. reflexivity.
  Qed.

  (** linear invariants *)
  Lemma forecast_invariant {I} s (phi : arr K I -> K) (f : K -> arr K I -> arr K I) w u0 sv traj :
    (forall a b, phi (vadd a b) = phi a + phi b) ->
    (forall c a, phi (vscale c a) = c * phi a) ->
    (forall t u, phi (f t u) = 0) ->
    fcast s (pure f) w u0 sv = Ok traj ->
    forall t u, dget keq t traj = Some u -> phi u = phi u0.
  Proof.
    intros H1 H2 H3 H t u G. apply (forecast_values _ _ _ _ _ _ _ _ H) in G as [_ G].
    destruct G as (k & _ & _ & R). clear - R H1 H2 H3.
    induction R; auto. rewrite IHR. eapply step_functional; eauto.
  Qed.

  (** identity model *)
  Lemma identity_forecast {I} s (u0 : arr K I) w sv traj :
    fcast s identity_trend w u0 sv = Ok traj ->
    forall t u, dget keq t traj = Some u -> u = u0.
  Proof.
    intros H t u G. apply (forecast_values _ _ _ _ _ _ _ _ H) in G as [_ G].
    destruct G as (k & _ & _ & R). clear - R.
    induction R; auto. rewrite IHR. rewrite identity_step in H. congruence.
  Qed.

  Lemma identity_forecast_total {I} s (u0 : arr K I) w sv :
    w <> [] -> sv <> SOther -> exists traj, fcast s identity_trend w u0 sv = Ok traj.
  Proof.
    apply forecast_total. intros. exists u. apply identity_step.
  Qed.

  (** affine models *)
  Lemma reach_affine {I} s (f L : K -> arr K I -> arr K I) h :
    affine_with K f L ->
    forall w u p k a b,
      reach fsub (onestep_fun s) (pure f) w u k a ->
      reach fsub (onestep_fun s) (pure L) w p k b ->
      reach fsub (onestep_fun s) (pure f) w (vadd u (vscale h p)) k (vadd a (vscale h b)).
  Proof.
    intros Ha w u p k a b R. revert p b.
    induction R as [t w u|t t' w u u1 k v Hs R IH]; intros p b Rb; inversion Rb; subst.
    - constructor.
    - econstructor; [eapply affine_step; eauto|]. apply IH. auto.
  Qed.

  Lemma pure_total {I} s (f : K -> arr K I -> arr K I) :
    forall t u d, exists v, onestep_fun s (pure f) t u d = Ok v.
  Proof. intros. apply pure_step. Qed.

  Lemma forecast_affine {I} s (f L : K -> arr K I -> arr K I) h w u p sv d0 d1 t a b :
    affine_with K f L ->
    fcast s (pure f) w u sv = Ok d0 -> fcast s (pure L) w p sv = Ok d1 ->
    dget keq t d0 = Some a -> dget keq t d1 = Some b ->
    exists d2, fcast s (pure f) w (vadd u (vscale h p)) sv = Ok d2
      /\ dget keq t d2 = Some (vadd a (vscale h b)).
  Proof.
    intros Ha H0 H1 G0 G1.
    assert (Hw : w <> []) by (intros ->; destruct sv; discriminate).
    assert (Hs : sv <> SOther) by (intros ->; rewrite forecast_SOther in H0; discriminate).
    destruct (forecast_total keq fsub (onestep_fun s) (pure f) (pure_total s f) w
                (vadd u (vscale h p)) sv Hw Hs) as [d2 H2].
    exists d2. split; auto. apply (forecast_values _ _ _ _ _ _ _ _ H2).
    apply (forecast_values _ _ _ _ _ _ _ _ H0) in G0 as [Hsv (k & Hk & Lk & Rk)].
    apply (forecast_values _ _ _ _ _ _ _ _ H1) in G1 as [_ (j & Hj & Lj & Rj)].
    split; auto.
    assert (k = j).
    { destruct (Nat.lt_trichotomy k j) as [Hl|[?|Hl]]; auto.
      - exfalso. exact (Lk j Hl Hj). - exfalso. exact (Lj k Hl Hk). }
    subst j. exists k. repeat split; auto. apply (reach_affine s f L h Ha); auto.
  Qed.

  Definition tl_pert {I} (h : K) (state p : arr K I) : arr K I := vadd state (vscale h p).
  Definition tl_quot {I} (h : K) (a b : arr K I) : arr K I := vdiv (vsub a b) h.

  Lemma tl_quot_pert {I} h (a b : arr K I) : h <> 0 -> tl_quot h (vadd a (vscale h b)) a = b.
  Proof.
    intros Hh. apply functional_extensionality; intro i.
    unfold tl_quot, vdiv, vsub, vadd, vscale. field. exact Hh.
  Qed.

  Lemma forecast_tl_affine {I} s (f L : K -> arr K I -> arr K I) h ens w state perts sv l :
    affine_with K f L -> h <> 0 ->
    pool_ens keq fsub (onestep_fun s) (pure f) ens ->
    w <> [] -> saved_list w sv = Some l -> NoDup l ->
    exists fc tl,
      forecast_tl keq fsub (onestep_fun s) (pure f) (tl_pert h) (tl_quot h) ens w state perts sv
        = Ok (fc, tl)
      /\ fcast s (pure f) w state sv = Ok fc
      /\ dkeys tl = l
      /\ (forall t, In t l -> In t w ->
            exists vs, dget keq t tl = Some vs
              /\ Forall2 (fun p v => exists d, fcast s (pure L) w p sv = Ok d
                                               /\ dget keq t d = Some v) perts vs)
      /\ (forall t, In t l -> ~ In t w -> dget keq t tl = Some []).
  Proof.
    intros Ha Hh Hens Hw Hl Hnd.
    assert (Hs : sv <> SOther) by (intros ->; discriminate).
    assert (Heq : forall g (u : arr K I), fcast s g w u (SIter l) = fcast s g w u sv).
    { intros g u. rewrite (forecast_fw _ _ _ _ w u sv l Hl).
      apply forecast_fw. reflexivity. }
    unfold forecast_tl. rewrite (check_iter _ _ _ Hl). rewrite Heq.
    destruct (forecast_total keq fsub (onestep_fun s) (pure f) (pure_total s f) w state sv Hw Hs)
      as [fc Hfc]. rewrite Hfc. cbn [bind].
    set (sts := map (tl_pert h state) perts).
    pose proof (ensemble_seq_spec keq fsub (onestep_fun s) (pure f) w sts (SIter l) l eq_refl) as HE.
    assert (Hm : exists fcs, mapM (fun st => fcast s (pure f) w st (SIter l)) sts = Ok fcs).
    { clear - Hw Hs. induction sts as [|x r [fcs IH]]; [exists []; reflexivity|].
      destruct (forecast_total keq fsub (onestep_fun s) (pure f) (pure_total s f) w x (SIter l) Hw
          ltac:(discriminate)) as [d Hd].
      exists (d :: fcs). simpl. rewrite Hd. simpl. rewrite IH. reflexivity. }
    destruct Hm as [fcs Hfcs]. rewrite Hfcs in HE. destruct HE as (d & Ed & Kd & Gd).
    rewrite (pool_ens_Ok _ _ _ _ ens w sts (SIter l) d Hens Ed). cbn [bind].
    assert (Hcol : forall t, ~ In t w -> column keq t fcs = []).
    { intros t Ht. eapply column_notin; eauto. }
    destruct (tl_loop keq (tl_quot h) fc l d Hnd) as (tl & Etl & Ktl & G1 & _).
    - intros q Hq. exists (column keq q fcs). split; [auto|].
      destruct (in_dec keq q w) as [Hin|Hin]; [right|left; auto].
      eapply forecast_get; eauto. apply (saved_list_spec _ _ _ q Hl). auto.
    - exists fc, tl. rewrite Etl. cbn [bind]. split; [reflexivity|]. split; [reflexivity|].
      split; [rewrite Ktl, Kd; apply firsts_NoDup_id; auto|]. split.
      + intros t Ht Hin. pose proof (G1 t _ Ht (Gd t Ht)) as G.
        destruct (forecast_get keq fsub (onestep_fun s) (pure f) w state sv fc t Hfc) as [a Hav]; auto.
        { apply (saved_list_spec _ _ _ t Hl). auto. }
        rewrite Hav in G. eexists. split; [exact G|].
        clear - Ha Hh Hw Hs Hl Hfcs Hav Hfc Hin Ht Heq. subst sts. revert fcs Hfcs.
        induction perts as [|p r IH]; intros fcs Hfcs.
        * simpl in Hfcs. inversion Hfcs; subst. constructor.
        * simpl map in Hfcs. cbn [mapM] in Hfcs. rewrite Heq in Hfcs.
          destruct (forecast_total keq fsub (onestep_fun s) (pure L) (pure_total s L) w p sv Hw Hs)
            as [dp Hdp].
          destruct (forecast_get keq fsub (onestep_fun s) (pure L) w p sv dp t Hdp) as [b Hb]; auto.
          { apply (saved_list_spec _ _ _ t Hl). auto. }
          destruct (forecast_affine s f L h w state p sv fc dp t a b Ha Hfc Hdp Hav Hb)
            as (d2 & Hd2 & Gd2).
          unfold tl_pert at 1 in Hfcs. rewrite Hd2 in Hfcs. cbn [bind] in Hfcs.
          destruct (mapM _ (map (tl_pert h state) r)) as [fcs'|] eqn:Em; [|discriminate].
          cbn [bind] in Hfcs. inversion Hfcs; subst fcs. simpl. rewrite Gd2. simpl.
          constructor; [|apply IH; auto].
          exists dp. split; auto. rewrite tl_quot_pert by auto. exact Hb.
      + intros t Ht Hin. rewrite (G1 t _ Ht (Gd t Ht)). rewrite (Hcol t Hin).
        destruct (dget keq t fc); reflexivity.
  Qed.

  (** ** make_M *)
  Section MakeM.
    Context {I : Type}.
    Variable ieq : forall a b : I, {a = b} + {a <> b}.
    (** the index set, listed in numpy order *)
    Variable enum : list I.
    Hypothesis enum_nodup : NoDup enum.
    Hypothesis enum_all : forall i, In i enum.

    Definition dirac (i : I) : arr K I := fun j => if ieq i j then 1 else 0.

    Fixpoint lsum (l : list K) : K := match l with [] => 0 | x :: r => x + lsum r end.

    Lemma dirac_decomp (u : arr K I) :
      u = fold_right (fun i acc => vadd (vscale (u i) (dirac i)) acc) vzero enum.
    Proof.
      apply functional_extensionality; intro j.
      assert (G : forall l, NoDup l ->
        fold_right (fun i acc => vadd (vscale (u i) (dirac i)) acc) vzero l j
        = if in_dec ieq j l then u j else 0).
      { induction l as [|i l IH]; intros Hnd; [reflexivity|].
        inversion Hnd; subst. simpl fold_right. unfold vadd at 1, vscale at 1. rewrite IH by auto.
        unfold dirac at 1. destruct (ieq i j) as [->|Hn].
        - destruct (in_dec ieq j l); [tauto|].
          destruct (in_dec ieq j (j :: l)) as [_|Hi]; [ring|exfalso; apply Hi; left; auto].
        - destruct (in_dec ieq j l), (in_dec ieq j (i :: l)) as [Hi|Hi]; try ring.
          + exfalso. apply Hi. right; auto.
          + exfalso. destruct Hi; congruence || auto. }
      rewrite G by auto. destruct (in_dec ieq j enum) as [|Hn]; auto. exfalso; auto.
    Qed.

    (** linear model *)
    Variable s : onestep.
    Variable L : K -> arr K I -> arr K I.
    Hypothesis Llin : forall t, linear (L t).
    Variable ens : list K -> list (arr K I) -> saved K -> res (dict K (list (arr K I))).
    Hypothesis Hens : pool_ens keq fsub (onestep_fun s) (pure L) ens.

    Lemma linear_affine : affine_with K L L.
    Proof. intros t u h p. destruct (Llin t) as [H1 H2]. rewrite H1, H2. reflexivity. Qed.

    Lemma linear_zero t : L t vzero = vzero.
    Proof.
      destruct (Llin t) as [_ H2].
      replace (@vzero K I) with (vscale 0 (@vzero K I)) at 1
        by (apply functional_extensionality; intro; unfold vscale, vzero; ring).
      rewrite H2. apply functional_extensionality; intro; unfold vscale, vzero; ring.
    Qed.

    (** final state of a forecast *)
    Definition final (w : list K) (u0 v : arr K I) : Prop :=
      exists tend traj, last_opt w = Some tend
        /\ fcast s (pure L) w u0 (SIter [tend]) = Ok traj /\ dget keq tend traj = Some v.

    Lemma final_exists w u0 : w <> [] -> exists v, final w u0 v.
    Proof.
      intros Hw. destruct (last_opt w) as [tend|] eqn:E; [|apply last_opt_None in E; tauto].
      destruct (forecast_total keq fsub (onestep_fun s) (pure L) (pure_total s L) w u0
                  (SIter [tend]) Hw ltac:(discriminate)) as [d Hd].
      destruct (forecast_get keq fsub (onestep_fun s) (pure L) w u0 (SIter [tend]) d tend Hd) as [v Hv].
      - left; auto.
      - apply last_opt_nth in E. eapply nth_error_In; eauto.
      - exists v, tend, d. auto.
    Qed.

    Lemma final_det w u0 v v' : final w u0 v -> final w u0 v' -> v = v'.
    Proof.
      intros (t & d & E & H & G) (t' & d' & E' & H' & G').
      rewrite E in E'. inversion E'; subst. rewrite H in H'. inversion H'; subst. congruence.
    Qed.

    Lemma final_affine w u p h a b :
      final w u a -> final w p b -> final w (vadd u (vscale h p)) (vadd a (vscale h b)).
    Proof.
      intros (t & d & E & H & G) (t' & d' & E' & H' & G').
      rewrite E in E'. inversion E'; subst.
      destruct (forecast_affine s L L h w u p (SIter [t']) d d' t' a b linear_affine H H' G G')
        as (d2 & H2 & G2). exists t', d2. auto.
    Qed.

    Lemma final_zero w : w <> [] -> final w vzero vzero.
    Proof.
      intros Hw. destruct (final_exists w vzero Hw) as [v Hv].
      assert (G : v = vzero).
      { assert (H : final w (vadd vzero (vscale (-(1)) vzero)) (vadd v (vscale (-(1)) v)))
          by (apply final_affine; auto).
        replace (vadd vzero (vscale (-(1)) vzero)) with (@vzero K I) in H
          by (apply functional_extensionality; intro; unfold vadd, vscale, vzero; ring).
        pose proof (final_det _ _ _ _ H Hv) as E. rewrite <- E.
        apply functional_extensionality; intro; unfold vadd, vscale, vzero; ring. }
      rewrite <- G at 2. exact Hv.
    Qed.

    Lemma vadd_comm (a b : arr K I) : vadd a b = vadd b a.
    Proof. apply functional_extensionality; intro; unfold vadd; ring. Qed.

    Lemma final_sum w (u : arr K I) l vs :
      w <> [] -> Forall2 (fun i v => final w (dirac i) v) l vs ->
      final w (fold_right (fun i acc => vadd (vscale (u i) (dirac i)) acc) vzero l)
              (fold_right (fun iv acc => vadd (vscale (u (fst iv)) (snd iv)) acc) vzero
                          (combine l vs)).
    Proof.
      intros Hw. induction 1 as [|i v l vs Hi Hl IH]; simpl.
      - apply final_zero; auto.
      - rewrite (vadd_comm _ (fold_right _ vzero l)), (vadd_comm _ (fold_right _ vzero (combine _ _))).
        apply final_affine; auto.
    Qed.

    (** numpy index k of a state is the element [ix k] of [I] *)
    Variable ix : nat -> I.
    Variable n : nat.
    Hypothesis enum_ix : enum = map ix (seq 0 n).

    Lemma make_M_rows w :
      w <> [] ->
      exists M, make_M keq ens n (fun k => dirac (ix k)) w = Ok M
        /\ Forall2 (fun i v => final w (dirac i) v) enum M.
    Proof.
      intros Hw. unfold make_M.
      destruct (last_opt w) as [tend|] eqn:Et; [|apply last_opt_None in Et; tauto].
      assert (Htw : In tend w) by (pose proof (last_opt_nth _ _ Et) as En; eapply nth_error_In; eauto).
      set (sts := map (fun k => dirac (ix k)) (seq 0 n)).
      assert (Hm : exists fcs, mapM (fun st => fcast s (pure L) w st (SIter [tend])) sts = Ok fcs).
      { generalize sts as l. induction l as [|x r [fcs IH]]; [exists []; reflexivity|].
        destruct (forecast_total keq fsub (onestep_fun s) (pure L) (pure_total s L) w x
          (SIter [tend]) Hw ltac:(discriminate)) as [d Hd].
        exists (d :: fcs). simpl. rewrite Hd. simpl. rewrite IH. reflexivity. }
      destruct Hm as [fcs Hfcs].
      pose proof (ensemble_seq_spec keq fsub (onestep_fun s) (pure L) w sts (SIter [tend])
                    [tend] eq_refl) as HE.
      rewrite Hfcs in HE. destruct HE as (d & Ed & _ & Gd).
      rewrite (pool_ens_Ok _ _ _ _ ens w sts (SIter [tend]) d Hens Ed). cbn [bind].
      unfold dgetE. rewrite (Gd tend (or_introl eq_refl)).
      exists (column keq tend fcs). split; [reflexivity|].
      pose proof (column_in keq fsub (onestep_fun s) (pure L) w (SIter [tend]) sts fcs tend Hfcs
                    (or_introl eq_refl) Htw) as Hc.
      rewrite enum_ix. apply Forall2_map_l. subst sts. apply Forall2_map_l in Hc.
      eapply Forall2_impl; [|exact Hc]. intros k v (fc & Hf & Hg).
      exists tend, fc. auto.
    Qed.

    Lemma combine_sum (u : arr K I) l (vs : list (arr K I)) j :
      fold_right (fun iv acc => vadd (vscale (u (fst iv)) (snd iv)) acc) vzero (combine l vs) j
      = lsum (map (fun iv : I * arr K I => u (fst iv) * snd iv j) (combine l vs)).
    Proof.
      revert vs; induction l as [|i l IH]; intros [|v vs]; simpl; auto.
      unfold vadd at 1, vscale at 1. rewrite IH. reflexivity.
    Qed.

    (** entry (k,j) of the array is M_k(j); the forecast of u0 at the final time is the
        row-vector product u0^T M *)
    Lemma make_M_left w u0 M v :
      w <> [] -> make_M keq ens n (fun k => dirac (ix k)) w = Ok M -> final w u0 v ->
      length M = n /\
      forall j, v j = lsum (map (fun iv : I * arr K I => u0 (fst iv) * snd iv j) (combine enum M)).
    Proof.
      intros Hw HM Hf. destruct (make_M_rows w Hw) as (M' & HM' & HF).
      rewrite HM in HM'. inversion HM'; subst M'.
      split.
      - assert (Hl : length enum = length M) by (clear - HF; induction HF; simpl; auto).
        rewrite enum_ix, map_length, seq_length in Hl. auto.
      - intros j. rewrite <- combine_sum.
        pose proof (final_sum w u0 enum M Hw HF) as Hs. rewrite <- dirac_decomp in Hs.
        rewrite (final_det _ _ _ _ Hf Hs). reflexivity.
    Qed.

    (** M.u0 *)
    Definition matvec (M : list (arr K I)) (u : arr K I) (k : nat) : K :=
      match nth_error M k with
      | Some row => lsum (map (fun i => row i * u i) enum)
      | None => 0
      end.

    Lemma lsum_zero {A} (g : A -> K) l : (forall x, In x l -> g x = 0) -> lsum (map g l) = 0.
    Proof.
      induction l as [|x l IH]; intros H; simpl; auto.
      rewrite H by (left; auto). rewrite IH by (intros; apply H; right; auto). ring.
    Qed.

    Lemma lsum_dirac (row : arr K I) i : lsum (map (fun j => row j * dirac i j) enum) = row i.
    Proof.
      assert (G : forall l, NoDup l -> In i l ->
                 lsum (map (fun j => row j * dirac i j) l) = row i).
      { induction l as [|x l IH]; intros Hnd Hi; [destruct Hi|].
        inversion Hnd; subst. simpl. destruct Hi as [->|Hi].
        - rewrite lsum_zero.
          + unfold dirac. destruct (ieq i i); [ring|congruence].
          + intros y Hy. unfold dirac. destruct (ieq i y); [subst; tauto|ring].
        - rewrite IH by auto. unfold dirac. destruct (ieq i x); [subst; tauto|ring]. }
      apply G; auto.
    Qed.

    Lemma combine_nth_map {A} (g : I -> arr K I -> A) (h : I -> A) l vs :
      length l = length vs ->
      (forall k i v, nth_error l k = Some i -> nth_error vs k = Some v -> g i v = h i) ->
      map (fun iv : I * arr K I => g (fst iv) (snd iv)) (combine l vs) = map h l.
    Proof.
      revert vs. induction l as [|i l IH]; intros [|v vs] Hl H; simpl in *; try discriminate; auto.
      f_equal; [apply (H O); auto|]. apply IH; [lia|].
      intros k i' v' Hi Hv. apply (H (Datatypes.S k)); auto.
    Qed.

    Lemma enum_nth k : k < n -> nth_error enum k = Some (ix k).
    Proof.
      intros Hk. rewrite enum_ix, nth_error_map.
      rewrite (nth_error_nth' (seq 0 n) O) by (rewrite seq_length; auto).
      rewrite seq_nth by auto. reflexivity.
    Qed.

    (** M.u0 is the final state for every u0 exactly when M is symmetric *)
    Lemma make_M_right_iff w M :
      w <> [] -> make_M keq ens n (fun k => dirac (ix k)) w = Ok M ->
      (forall u0 v, final w u0 v -> forall k, k < n -> v (ix k) = matvec M u0 k)
      <-> (forall k j a b, nth_error M k = Some a -> nth_error M j = Some b -> a (ix j) = b (ix k)).
    Proof.
      intros Hw HM. destruct (make_M_rows w Hw) as (M' & HM' & HF).
      rewrite HM in HM'. inversion HM'; subst M'. clear HM'.
      assert (Hlen : length enum = length M) by (clear - HF; induction HF; simpl; auto).
      assert (Hen : length enum = n) by (rewrite enum_ix, map_length, seq_length; auto).
      split.
      - intros H k j a b Ha Hb.
        assert (Hk : k < n) by (rewrite <- Hen, Hlen; apply nth_error_Some; congruence).
        assert (Hj : j < n) by (rewrite <- Hen, Hlen; apply nth_error_Some; congruence).
        destruct (Forall2_nth _ _ _ HF j (ix j) (enum_nth j Hj)) as (b' & Hb' & Hf).
        rewrite Hb in Hb'. inversion Hb'; subst b'.
        rewrite (H _ _ Hf k Hk). unfold matvec. rewrite Ha. symmetry. apply lsum_dirac.
      - intros H u0 v Hf k Hk.
        destruct (make_M_left w u0 M v Hw HM Hf) as [_ Hv]. rewrite Hv.
        destruct (Forall2_nth _ _ _ HF k (ix k) (enum_nth k Hk)) as (row & Hrow & _).
        unfold matvec. rewrite Hrow. apply f_equal.
        apply (combine_nth_map (fun i v => u0 i * v (ix k)) (fun i => row i * u0 i)); auto.
        intros j i vj Hi Hvj.
        assert (Hj : j < n) by (rewrite <- Hen; apply nth_error_Some; congruence).
        rewrite (enum_nth j Hj) in Hi. inversion Hi; subst i.
        rewrite (H k j row vj Hrow Hvj). ring.
    Qed.
  End MakeM.
End Fields.
