(** Which averages remain in the systems. *)
From Coq Require Import List Arith ZArith NArith QArith Bool String Permutation Sorted Lia.
From Verif Require Import PyBase PyBaseFacts PartialOrderModel PartialOrderSpec PartialOrderProofs TreeModel TreeSpec TreeProofs TreeMore TreeProps
  PKFModel PKFSpec PKFAlg PKFAtoms PKFClosure PKFProofs PKFInv PKFShape PKFMore PKFWords PKFTime PKFTimeSpec PKFExplicit PKFCanon.
Import ListNotations.
Close Scope Q_scope.
Close Scope N_scope.
Close Scope Z_scope.
Open Scope nat_scope.
Open Scope string_scope.
Open Scope list_scope.

(** *** the averages of an expression *)
Definition av (P : list jet -> Prop) (a : atom) : Prop := match a with AExp _ l => P l | _ => True end.
Notation avs P := (pall (av P)).
Lemma avs_iff P p : avs P p <-> forall l, averaged_in l p -> P l.
Proof.
  split.
  - intros H l (c & m & w & Hm & Ha). exact (H c m Hm _ Ha).
  - intros H c m Hm a Ha. destruct a; try exact I. apply H. exists c, m, w. auto.
Qed.
Lemma avs_weaken (P Q : list jet -> Prop) p : (forall l, P l -> Q l) -> avs P p -> avs Q p.
Proof. intros H. apply pall_weaken. intros []; cbn; auto. Qed.
Lemma avs_jet P f w : avs P (pjet f w).
Proof. apply pjet_all; [exact I|intros i _; exact I]. Qed.
Lemma avs_derivs P w p : avs P p -> avs P (pderivs w p).
Proof.
  apply pderivs_all. intros c a Ha. destruct a; cbn [datom]; try apply avs_jet; try apply pall_nil.
  - apply pall_atom. exact Ha.
  - apply pmulm_all; [intros b [<-|[]]; exact I|apply avs_jet].
  - apply pmulm_all; [intros b [<-|[<-|[<-|[]]]]; exact I|apply avs_jet].
Qed.
Lemma avs_sub_exps d : forall (P Q : list jet -> Prop) p, (forall l v, In (l, v) d -> avs Q v) -> avs P p ->
  avs (fun l => (P l /\ ~ In l (dkeys d)) \/ Q l) (sub_exps d p).
Proof.
  unfold sub_exps. induction d as [|[k v] d IH]; intros P Q p Hd Hp; cbn [fold_left].
  - eapply avs_weaken; [|exact Hp]. intros l Hl. left. split; [exact Hl|intros []].
  - eapply avs_weaken; [|apply (IH (fun l => (P l /\ l <> k) \/ Q l) Q); [intros l' v' H; apply (Hd l' v'); right; exact H|]].
    + intros l [[[[H1 H2]|H] H3]|H]; auto. left. split; [exact H1|]. intros [E|E]; [cbn in E; congruence|exact (H3 E)].
    + cbn [fst snd]. unfold sub_exp. apply (replace_all (av P)); [exact Hp|]. intros a Ha. destruct a; try (apply patom_all; exact I).
      destruct (jets_eq_dec l k) as [->|Hn].
      * apply avs_derivs. eapply avs_weaken; [|apply (Hd k v); left; reflexivity]. auto.
      * apply patom_all. cbn. left. auto.
Qed.

(** *** keys *)
Lemma eps_key i w : jkey [(FEps i, []); (FEps i, w)] = [(FEps i, []); (FEps i, w)].
Proof.
  unfold jkey, mmul, mins. cbn [map fold_right fst snd inverse insert_atom].
  assert (L : atom_lt (AJet (FEps i) w) (AJet (FEps i) []) = false).
  { unfold atom_lt, acode, jcode, fcode. cbn. destruct (N.ltb_spec (ncode i) (ncode i)) as [H|_]; [lia|]. cbn.
    unfold ncode. destruct (N.of_nat (List.length w)) eqn:E; [|reflexivity]. destruct w; [reflexivity|]. cbn [List.length] in E. lia. }
  rewrite L. reflexivity.
Qed.
Lemma two_key (g : nat -> fn) t i j : (forall k, fcode (g k) = [t; ncode k]) -> (forall k, is_random (g k) = true) -> i <= j -> jkey [(g i, []); (g j, [])] = [(g i, []); (g j, [])].
Proof.
  intros Hg Hr Hij. unfold jkey, mmul, mins. cbn [map fold_right fst snd inverse insert_atom].
  assert (L : atom_lt (AJet (g j) []) (AJet (g i) []) = false).
  { unfold atom_lt, acode, jcode. cbn [fst snd]. rewrite !Hg. cbn. destruct (N.ltb_spec t t) as [H|_]; [lia|]. unfold ncode.
    destruct (N.ltb_spec (N.of_nat j) (N.of_nat i)); [lia|]. destruct (N.ltb_spec (N.of_nat i) (N.of_nat j)); reflexivity. }
  rewrite L. unfold random_jets. cbn [flat_map]. rewrite !Hr. reflexivity.
Qed.
Lemma err_key i j : i <= j -> jkey [(FErr i, []); (FErr j, [])] = [(FErr i, []); (FErr j, [])].
Proof. apply (two_key FErr 3%N); reflexivity. Qed.
Lemma epss_key i j : i <= j -> jkey [(FEps i, []); (FEps j, [])] = [(FEps i, []); (FEps j, [])].
Proof. apply (two_key FEps 4%N); reflexivity. Qed.

Lemma cov_keys l : forall d k, In k (dkeys (fold_left cov_step l d)) <->
  In k (dkeys d) \/ exists i j, In (i, j) l /\ (k = jkey [(FErr i, []); (FErr j, [])] \/ k = jkey [(FEps i, []); (FEps j, [])]).
Proof.
  induction l as [|[i j] l IH]; intros d k; cbn [fold_left].
  - split; [auto|]. intros [H|(i & j & [] & _)]; exact H.
  - rewrite IH. unfold cov_step at 1. rewrite !dkeys_dset_in. split.
    + intros [[H|[H|H]]|(i' & j' & H & H')]; auto.
      * right. exists i, j. split; [left; reflexivity|auto]. * right. exists i, j. split; [left; reflexivity|auto].
      * right. exists i', j'. split; [right; exact H|exact H'].
    + intros [H|(i' & j' & [H|H] & H')]; auto.
      * injection H as <- <-. destruct H'; auto. * right. exists i', j'. auto.
Qed.
Lemma dkeys_ex {K V} (d : dict K V) k : In k (dkeys d) <-> exists v, In (k, v) d.
Proof.
  unfold dkeys. rewrite in_map_iff. split; [intros ([k' v] & <- & H); exists v; exact H|intros (v & H); exists (k, v); auto].
Qed.
Lemma word_of_sequence coords o : word_of coords o = fold_right winsert [] (as_sequence (mkPod coords o)).
Proof.
  unfold word_of, as_sequence, as_couples. cbn [p_coords p_tuple]. f_equal. f_equal. apply map_ext. intros [c z]. cbn [fst snd].
  destruct (Z.ltb_spec 0 z); [reflexivity|]. destruct z; try lia; reflexivity.
Qed.
Lemma winsert_length c w : List.length (winsert c w) = S (List.length w).
Proof. exact (Permutation_length (winsert_perm c w)). Qed.
Lemma word_of_length coords o : List.length o = List.length coords -> (forall z, In z o -> (0 <= z)%Z) ->
  Z.of_nat (List.length (word_of coords o)) = fold_right Z.add 0%Z o.
Proof.
  intros H1 H2. rewrite <- (sequence_length coords o H1 H2), word_of_sequence. f_equal. generalize (as_sequence (mkPod coords o)).
  induction l as [|c l IH]; [reflexivity|]. cbn [fold_right]. rewrite winsert_length, IH. reflexivity.
Qed.

Section Normal.
  Variables (enum : list mi -> list mi) (enumD : tdict -> tdict) (enumC : edict -> edict)
    (enumF : list (fn * poly) -> list (fn * poly)) (enumU : list fn -> list fn).
  Variables (coords : list string) (eqs : list poly).
  Hypothesis Henum : forall l, Permutation (enum l) l.
  Hypothesis HenumD : forall l, Permutation (enumD l) l.
  Hypothesis HenumC : forall l, Permutation (enumC l) l.
  Hypothesis HenumU : forall l, Permutation (enumU l) l.
  Hypothesis Hcoords : NoDup coords.
  Hypothesis Hne : coords <> [].
  Notation n := (List.length eqs).

  Lemma field_keys i d : field_closure enum coords i = Ok d -> forall k, In k (dkeys d) <->
    k = [(FErr i, [])] \/ k = [(FErr i, []); (FErr i, [])] \/ k = [(FEps i, [])]
    \/ exists w, spatial coords w /\ List.length w <= 3 /\ k = [(FEps i, []); (FEps i, w)].
  Proof.
    unfold field_closure. destruct (C37_all_of_degree enum coords 3 Henum Hne) as (ps & -> & _ & Hps). cbn [bind].
    destruct (mapM (skewness_entry coords i) (map (mkPod coords) ps)) as [sk|] eqn:Hsk; cbn [bind]; [|discriminate].
    intros H k. apply Ok_inj in H. subst d. rewrite dkeys_ex.
    assert (S3 : forall o l v, skewness_entry coords i (mkPod coords o) = Ok (l, v) -> l = [(FEps i, []); (FEps i, word_of coords o)]).
    { intros o l v H. unfold skewness_entry in H. rewrite word_of_sequence. destruct (as_sequence (mkPod coords o)) as [|a [|b [|c [|]]]]; try discriminate.
      destruct (skewness_subs coords i a b c); cbn [bind] in H; [|discriminate]. apply Ok_inj, pair_inj in H. destruct H as [<- _]. cbn [fold_right]. apply eps_key. }
    split.
    - intros (v & Hin). apply in_app_iff in Hin. destruct Hin as [Hin|Hin].
      2:{ destruct (mapM_in _ _ _ _ Hsk Hin) as (p & Hp & He). apply in_map_iff in Hp. destruct Hp as (o & <- & Ho).
          apply Hps in Ho. destruct Ho as (H1 & H2 & H3). right; right; right. exists (word_of coords o).
          split; [apply spatial_word_of|]. split; [|exact (S3 o k v He)]. apply Nat2Z.inj_le. rewrite word_of_length by assumption. rewrite H3. lia. }
      apply in_app_iff in Hin. destruct Hin as [[H|[H|[H|[H|[]]]]]|Hin].
      + apply pair_inj in H. destruct H as [<- _]. left. reflexivity.
      + apply pair_inj in H. destruct H as [<- _]. right. left. apply err_key. lia.
      + apply pair_inj in H. destruct H as [<- _]. right. right. left. reflexivity.
      + apply pair_inj in H. destruct H as [<- _]. right. right. right. exists []. split; [apply spatial_nil|]. split; [cbn; lia|apply eps_key].
      + right; right; right. apply in_app_iff in Hin. destruct Hin as [Hin|Hin]; apply in_map_iff in Hin.
        * destruct Hin as (c & H & Hc). apply pair_inj in H. destruct H as [<- _]. exists [c]. split; [apply spatial_one, Hc|]. split; [cbn; lia|apply eps_key].
        * destruct Hin as ([a b] & H & Hu). apply pair_inj in H. destruct H as [<- _]. cbn [fst snd]. apply upper_in in Hu. unfold dim in Hu.
          exists (winsert (coord coords a) [coord coords b]). split; [apply spatial_insert; [|apply spatial_one]; apply nth_In; lia|].
          split; [rewrite winsert_length; cbn; lia|apply eps_key].
    - intros [->|[->|[->|(w & Hw & Hl & ->)]]].
      + exists []. apply in_app_iff. left. apply in_app_iff. left. left. reflexivity.
      + exists (pfn (FVar i)). apply in_app_iff. left. apply in_app_iff. left. right. left. rewrite err_key by lia. reflexivity.
      + exists []. apply in_app_iff. left. apply in_app_iff. left. right. right. left. reflexivity.
      + destruct w as [|a [|b [|c [|d w]]]]; [| | | |cbn in Hl; lia].
        * exists pone. apply in_app_iff. left. apply in_app_iff. left. right. right. right. left. rewrite eps_key. reflexivity.
        * exists []. apply in_app_iff. left. apply in_app_iff. right. apply in_app_iff. left. apply in_map_iff. exists a.
          split; [rewrite eps_key; reflexivity|]. apply Hw. left. reflexivity.
        * assert (Ha : In a coords) by (apply Hw; left; reflexivity). assert (Hb : In b coords) by (apply Hw; right; left; reflexivity).
          destruct (In_nth _ _ "" Ha) as (x & Hx & Hxa), (In_nth _ _ "" Hb) as (y & Hy & Hyb).
          assert (K : forall u v, Permutation [coord coords u; coord coords v] [a; b] -> winsert (coord coords u) [coord coords v] = [a; b]).
          { intros u v HP. apply sorted_perm; [apply winsert_sorted; constructor; [intros d []|constructor]|apply Hw|]. rewrite winsert_perm. exact HP. }
          assert (G : exists u v, u <= v /\ v < List.length coords /\ winsert (coord coords u) [coord coords v] = [a; b]).
          { destruct (Nat.le_gt_cases x y).
            - exists x, y. split; [assumption|]. split; [assumption|]. apply K. unfold coord. rewrite Hxa, Hyb. reflexivity.
            - exists y, x. split; [lia|]. split; [assumption|]. apply K. unfold coord. rewrite Hxa, Hyb. constructor. }
          destruct G as (u & v & H1 & H2 & H3). exists (pscale (-1) (pfn (metric i u v))). apply in_app_iff. left. apply in_app_iff. right. apply in_app_iff. right.
          apply in_map_iff. exists (u, v). cbn [fst snd]. rewrite H3, eps_key. split; [reflexivity|]. apply upper_in. unfold dim. lia.
        * set (w := [a; b; c]) in *. pose proof (word_orders coords w Hcoords Hw) as HO. pose proof (orders_index coords w Hcoords Hw) as HI.
          apply Hps in HI. assert (Hin : In (mkPod coords (orders coords w)) (map (mkPod coords) ps)) by (apply in_map, HI).
          assert (G : exists y, In y sk /\ skewness_entry coords i (mkPod coords (orders coords w)) = Ok y).
          { apply mapM_Ok_Forall2 in Hsk. clear - Hsk Hin. induction Hsk as [|x y xs ys Hxy Hr IH]; [destruct Hin|]. destruct Hin as [->|Hin].
            - exists y. split; [left; reflexivity|exact Hxy]. - destruct (IH Hin) as (z & H1 & H2). exists z. split; [right; exact H1|exact H2]. }
          destruct G as ([l v] & G1 & G2). apply S3 in G2. rewrite HO in G2. subst l. exists v. apply in_app_iff. right. exact G1.
  Qed.
  Lemma internal_keys cl : internal_closure enum coords eqs = Ok cl -> forall k, In k (dkeys cl) <-> internal_key coords n k.
  Proof.
    unfold internal_closure. destruct (mapM (field_closure enum coords) (fields eqs)) as [ds|] eqn:Hds; cbn [bind]; [|discriminate].
    intros H k. apply Ok_inj in H. subst cl.
    change (fold_left _ (couples eqs) (fold_left dupdate ds [])) with (fold_left cov_step (couples eqs) (fold_left dupdate ds [])).
    rewrite cov_keys. unfold internal_key. split.
    - intros [H|(i & j & Hij & H)].
      + apply dkeys_ex in H. destruct H as (v & Hin). apply in_dupdates in Hin. destruct Hin as [[]|(d & Hd & Hin)].
        destruct (mapM_in _ _ _ _ Hds Hd) as (i & Hi & He). apply fields_in in Hi.
        assert (Hk : In k (dkeys d)) by (apply dkeys_ex; exists v; exact Hin). apply (field_keys i d He) in Hk.
        destruct Hk as [->|[->|[->|(w & Hw & Hl & ->)]]].
        * left. exists i. auto. * right. left. exists i, i. auto. * left. exists i. auto.
        * right. right. right. exists i, w. split; [exact Hi|]. split; [apply spatial_word_iff, Hw|auto].
      + apply couples_in in Hij. destruct Hij as [H1 H2]. destruct H as [->| ->].
        * right. left. exists i, j. rewrite err_key by lia. repeat split; lia. * right. right. left. exists i, j. rewrite epss_key by lia. auto.
    - assert (F : forall i, i < n -> (k = [(FErr i, [])] \/ k = [(FErr i, []); (FErr i, [])] \/ k = [(FEps i, [])]
                    \/ exists w, spatial coords w /\ List.length w <= 3 /\ k = [(FEps i, []); (FEps i, w)]) -> In k (dkeys (fold_left dupdate ds []))).
      { intros i Hi Hk. apply dkeys_dupdates. right. assert (Hin : In i (fields eqs)) by (apply fields_in, Hi). apply mapM_Ok_Forall2 in Hds.
        assert (G : exists d, In d ds /\ field_closure enum coords i = Ok d).
        { clear - Hds Hin. induction Hds as [|x y xs ys Hxy Hr IH]; [destruct Hin|]. destruct Hin as [->|Hin].
          - exists y. split; [left; reflexivity|exact Hxy]. - destruct (IH Hin) as (z & H1 & H2). exists z. split; [right; exact H1|exact H2]. }
        destruct G as (d & G1 & G2). exists d. split; [exact G1|]. apply (field_keys i d G2), Hk. }
      intros [(i & Hi & [->| ->])|[(i & j & Hij & Hj & ->)|[(i & j & Hij & Hj & ->)|(i & w & Hi & Hw & Hl & ->)]]].
      + left. apply (F i); auto. + left. apply (F i); auto.
      + destruct (Nat.eq_dec i j) as [<-|Hn]; [left; apply (F i); auto|]. right. exists i, j. split; [apply couples_in; lia|]. left. symmetry. apply err_key. exact Hij.
      + right. exists i, j. split; [apply couples_in; lia|]. right. symmetry. apply epss_key. lia.
      + left. apply (F i); [exact Hi|]. right. right. right. exists w. split; [apply spatial_word_iff, Hw|auto].
  Qed.

  (** *** no average in the values *)
  Lemma field_closure_free i d : field_closure enum coords i = Ok d -> forall l v, In (l, v) d -> avs (fun _ => False) v.
  Proof.
    unfold field_closure. destruct (all_of_degree enum coords 3) as [ps|]; cbn [bind]; [|discriminate].
    destruct (mapM (skewness_entry coords i) ps) as [sk|] eqn:Hsk; cbn [bind]; [|discriminate].
    intros H l v Hin. apply Ok_inj in H. subst d. apply in_app_iff in Hin. destruct Hin as [Hin|Hin].
    2:{ destruct (mapM_in _ _ _ _ Hsk Hin) as (p & _ & H). unfold skewness_entry in H. destruct (as_sequence p) as [|k [|a [|b [|]]]]; try discriminate. unfold skewness_subs in H.
        destruct (metric_of coords i k b) as [g1|]; cbn [bind] in H; [|discriminate].
        destruct (metric_of coords i a k) as [g2|]; cbn [bind] in H; [|discriminate].
        destruct (metric_of coords i a b) as [g3|]; cbn [bind] in H; [|discriminate].
        apply Ok_inj, pair_inj in H. destruct H as [_ <-]. apply pscale_all. repeat apply padd_all; apply avs_jet. }
    apply in_app_iff in Hin. destruct Hin as [[H|[H|[H|[H|[]]]]]|Hin].
    - apply pair_inj in H. destruct H as [_ <-]. apply pall_nil.
    - apply pair_inj in H. destruct H as [_ <-]. apply avs_jet.
    - apply pair_inj in H. destruct H as [_ <-]. apply pall_nil.
    - apply pair_inj in H. destruct H as [_ <-]. apply pone_all.
    - apply in_app_iff in Hin. destruct Hin as [Hin|Hin]; apply in_map_iff in Hin; destruct Hin as (c & H & _); apply pair_inj in H; destruct H as [_ <-].
      + apply pall_nil. + apply pscale_all, avs_jet.
  Qed.
  Lemma internal_free cl : internal_closure enum coords eqs = Ok cl -> forall l v, In (l, v) cl -> avs (fun _ => False) v.
  Proof.
    unfold internal_closure. destruct (mapM (field_closure enum coords) (fields eqs)) as [ds|] eqn:Hds; cbn [bind]; [|discriminate].
    intros H. apply Ok_inj in H. subst cl.
    change (fold_left _ (couples eqs) (fold_left dupdate ds [])) with (fold_left cov_step (couples eqs) (fold_left dupdate ds [])).
    assert (G : forall l d, (forall k v, In (k, v) d -> avs (fun _ => False) v) -> forall k v, In (k, v) (fold_left cov_step l d) -> avs (fun _ => False) v).
    { induction l as [|[i j] l IH]; intros d Hd; cbn [fold_left]; [exact Hd|]. apply IH. intros k v Hin. unfold cov_step in Hin.
      apply in_dset in Hin. destruct Hin as [[_ ->]|Hin].
      - apply pmulm_all; [intros a [<-|[<-|[]]]; exact I|apply avs_jet].
      - apply in_dset in Hin. destruct Hin as [[_ ->]|Hin]; [apply avs_jet|exact (Hd k v Hin)]. }
    apply G. intros k v Hin. apply in_dupdates in Hin. destruct Hin as [[]|(d & Hd & Hin)].
    destruct (mapM_in _ _ _ _ Hds Hd) as (i & _ & He). exact (field_closure_free i d He k v Hin).
  Qed.
  Lemma internal_avs cl (P : list jet -> Prop) p : internal_closure enum coords eqs = Ok cl -> avs P p ->
    avs (fun l => P l /\ ~ internal_key coords n l) (sub_exps (enumC cl) p).
  Proof.
    intros Hcl Hp. eapply avs_weaken; [|apply (avs_sub_exps (enumC cl) P (fun _ => False)); [|exact Hp]].
    - intros l [[H1 H2]|[]]. split; [exact H1|]. intros K. apply H2. apply (internal_keys cl Hcl) in K. unfold dkeys in *.
      apply (Permutation_in _ (Permutation_map fst (Permutation_sym (HenumC cl)))), K.
    - intros l v Hin. apply (internal_free cl Hcl l v), (Permutation_in _ (HenumC cl)), Hin.
  Qed.

  (** *** _apply_internal_closure *)
  Definition normal (l : list jet) : Prop := exists i w, i < n /\ spatial coords w /\ l = [(FEps i, []); (FEps i, w)].
  Lemma zero_word : word_of coords (zero_index (List.length coords)) = [].
  Proof.
    rewrite word_of_sequence. unfold as_sequence, as_couples, zero_index. cbn [p_coords p_tuple]. clear. induction coords as [|c cs IH]; [reflexivity|].
    cbn [List.length repeat combine map List.concat fst snd Z.ltb Z.compare app]. exact IH.
  Qed.
  Lemma tree_values_normal i k rules : i < n -> fst (tree_call enum enumD true coords tree_init (Some k)) = Ok rules ->
    forall ab e, In (ab, e) rules -> avs normal (tree_value coords i e).
  Proof.
    intros Hi HR [a b] e Hin. unfold tree_value. apply psum_all. intros q Hq. apply in_map_iff in Hq. destruct Hq as ([[c ds] [g h]] & <- & Ht).
    apply pscale_all, avs_derivs, pall_atom. cbn [av]. unfold tree_key. cbn [fst snd].
    destruct (C40_normal_forms enum enumD coords Henum HenumD Hcoords Hne [] (Some k) rules HR a b e c ds g h Hin Ht) as ([->| ->] & _); rewrite zero_word.
    - exists i, (word_of coords h). split; [exact Hi|]. split; [apply spatial_word_of|apply eps_key].
    - exists i, (word_of coords g). split; [exact Hi|]. split; [apply spatial_word_of|]. rewrite jkey_sym by reflexivity. apply eps_key.
  Qed.
  Lemma closed_tree_avs cl i k t (P : list jet -> Prop) p : i < n -> internal_closure enum coords eqs = Ok cl ->
    closed_tree enum enumD enumC coords cl i k = Ok t -> avs P p ->
    avs (fun l => (P l /\ forall d, univariate l (FEps i) d -> d <= k -> (forall j, In j l -> spatial coords (snd j)) -> normal l) \/ normal l) (sub_exps (enumC t) p).
  Proof.
    intros Hi Hcl Ht Hp. unfold closed_tree in Ht.
    destruct (fst (tree_call enum enumD true coords tree_init (Some k))) as [rules|] eqn:HR; cbn [bind] in Ht; [|discriminate]. apply Ok_inj in Ht. subst t.
    set (t := map _ rules). eapply avs_weaken; [|apply (avs_sub_exps (enumC t) P normal); [|exact Hp]].
    - intros l [[H1 H2]|H]; [left|right; exact H]. split; [exact H1|]. intros d (w & w' & -> & Hr & -> & _) Hd Hsp.
      assert (HP := jkey2_perm (FEps i) (FEps i) w w' eq_refl eq_refl).
      assert (Hw : spatial coords w) by (apply (Hsp (FEps i, w)), (Permutation_in _ (Permutation_sym HP)); left; reflexivity).
      assert (Hw' : spatial coords w') by (apply (Hsp (FEps i, w')), (Permutation_in _ (Permutation_sym HP)); right; left; reflexivity).
      destruct (Nat.eq_dec (List.length w) 0) as [E|E].
      { destruct w; [|discriminate]. exists i, w'. split; [exact Hi|]. split; [exact Hw'|apply eps_key]. }
      destruct (Nat.eq_dec (List.length w') 0) as [E'|E'].
      { destruct w'; [|discriminate]. exists i, w. split; [exact Hi|]. split; [exact Hw|]. rewrite jkey_sym by reflexivity. apply eps_key. }
      exfalso. apply H2. destruct (C39_complete enum enumD true coords Henum HenumD Hcoords Hne [] k) as (rules' & HR' & Hc).
      change (tree_calls enum enumD true coords tree_init []) with tree_init in HR'. rewrite HR' in HR. apply Ok_inj in HR. subst rules'.
      destruct (Hc (orders coords w) (orders coords w') (List.length w) (List.length w')) as (v & Hv); [split; [apply orders_index; assumption|exact E]|split; [apply orders_index; assumption|exact E']|exact Hd|].
      unfold dkeys. apply (Permutation_in _ (Permutation_map fst (Permutation_sym (HenumC t)))). unfold t. rewrite map_map. apply in_map_iff.
      destruct Hv as [Hv|Hv]; eexists; (split; [|exact Hv]); cbn [fst]; unfold tree_key; cbn [fst snd]; rewrite !word_orders by assumption; [reflexivity|apply jkey_sym; reflexivity].
    - intros l v Hin. apply (Permutation_in _ (HenumC t)) in Hin. unfold t in Hin. apply in_map_iff in Hin. destruct Hin as ([ab e] & H & Hin).
      apply pair_inj in H. destruct H as [_ <-]. cbn [snd]. eapply avs_weaken; [|apply (internal_avs cl normal _ Hcl), (tree_values_normal i k rules Hi HR ab e Hin)].
      intros l' [H _]. exact H.
  Qed.
  Lemma check_degree p l f k : In l (exp_atoms p) -> is_univariate l = Some (f, k) ->
    exists ns, dget fn_eq_dec f (check_univariate p) = Some ns /\ In k ns.
  Proof.
    unfold check_univariate. intros Hl Hu.
    set (step := fun (d : dict fn (list nat)) (l : list jet) => match is_univariate l with
        | None => d
        | Some (f, n) => match dget fn_eq_dec f d with Some ns => dset fn_eq_dec f (ns ++ [n]) d | None => dset fn_eq_dec f [n] d end
        end).
    assert (M : forall ls d, (exists ns, dget fn_eq_dec f d = Some ns /\ In k ns) -> exists ns, dget fn_eq_dec f (fold_left step ls d) = Some ns /\ In k ns).
    { induction ls as [|l' ls IH]; intros d H; cbn [fold_left]; [exact H|]. apply IH. destruct H as (ns & H1 & H2). unfold step.
      destruct (is_univariate l') as [[g m]|]; [|exists ns; auto].
      destruct (fn_eq_dec g f) as [->|Hgf].
      - rewrite H1. exists (ns ++ [m]). rewrite dget_dset_same. split; [reflexivity|apply in_app_iff; auto].
      - destruct (dget fn_eq_dec g d); rewrite dget_dset_other by exact Hgf; exists ns; auto. }
    change (exists ns, dget fn_eq_dec f (fold_left step (exp_atoms p) []) = Some ns /\ In k ns).
    revert Hl. generalize (@nil (fn * list nat)). induction (exp_atoms p) as [|l' ls IH]; intros d Hl; [destruct Hl|]. cbn [fold_left].
    destruct Hl as [->|Hl]; [|apply IH, Hl]. apply M. unfold step. rewrite Hu. destruct (dget fn_eq_dec f d) as [ns|].
    - exists (ns ++ [k]). rewrite dget_dset_same. split; [reflexivity|apply in_app_iff; right; left; reflexivity].
    - exists [k]. rewrite dget_dset_same. split; [reflexivity|left; reflexivity].
  Qed.
  Lemma max_ge ns k : In k ns -> k <= fold_right Nat.max 0 ns.
  Proof. induction ns as [|m ns IH]; intros H; [destruct H|]. cbn [fold_right]. destruct H as [->|H]; [lia|]. specialize (IH H). lia. Qed.

  Lemma apply_avs p q : (forall l, averaged_in l p -> forall j, In j l -> is_random (fst j) = true /\ spatial coords (snd j)) ->
    apply_internal_closure enum enumD enumC enumU coords eqs p = Ok q ->
    avs (fun l => ((averaged_in l p /\ forall f d, ~ univariate l f d) \/ normal l) /\ ~ internal_key coords n l) q.
  Proof.
    intros Hp. unfold apply_internal_closure. destruct (internal_closure enum coords eqs) as [cl|] eqn:Hcl; cbn [bind]; [|discriminate].
    destruct (existsb _ _); [discriminate|]. set (step := fun (p0 : poly) (f : fn) => _).
    destruct (foldM step p (enumU (dkeys (check_univariate p)))) as [p'|] eqn:HF; cbn [bind]; [|discriminate].
    intros H. apply Ok_inj in H. subst q. apply internal_avs; [exact Hcl|].
    assert (G : forall fs s s', avs (fun l => averaged_in l p \/ normal l) s -> foldM step s fs = Ok s' ->
              forall P, avs P s -> avs (fun l => (P l /\ forall f d, In f fs -> averaged_in l p -> ~ univariate l f d) \/ normal l) s').
    { induction fs as [|f fs IH]; intros s s' Hs Hf P HP; cbn [foldM] in Hf.
      - apply Ok_inj in Hf. subst s'. eapply avs_weaken; [|exact HP]. intros l Hl. left. split; [exact Hl|intros f d []].
      - destruct (step s f) as [s1|] eqn:H1; cbn [bind] in Hf; [|discriminate]. unfold step in H1.
        destruct (field_of eqs f) as [i|] eqn:Hfi; [|discriminate]. apply field_of_iff in Hfi. destruct Hfi as [Hi ->].
        destruct (dgetE fn_eq_dec (FEps i) (check_univariate p)) as [ns|] eqn:Hns; cbn [bind] in H1; [|discriminate].
        destruct (closed_tree enum enumD enumC coords cl i (fold_right Nat.max 0 ns)) as [t|] eqn:Htr; cbn [bind] in H1; [|discriminate].
        apply Ok_inj in H1. subst s1.
        pose proof (closed_tree_avs cl i _ t (fun l => averaged_in l p \/ normal l) s Hi Hcl Htr Hs) as A1.
        pose proof (closed_tree_avs cl i _ t P s Hi Hcl Htr HP) as A2.
        assert (D : forall l d, averaged_in l p -> univariate l (FEps i) d -> d <= fold_right Nat.max 0 ns /\ (forall j, In j l -> spatial coords (snd j))).
        { intros l d Hl Hu. split; [|intros j Hj; apply (Hp l Hl j Hj)]. apply univariate_iff in Hu; [|intros j Hj; apply (Hp l Hl j Hj)].
          apply averaged_iff in Hl. destruct (check_degree p l _ _ Hl Hu) as (ns' & H1 & H2). unfold dgetE in Hns. rewrite H1 in Hns. apply Ok_inj in Hns. subst ns'.
          apply max_ge, H2. }
        refine (avs_weaken _ _ _ _ (IH _ _ _ Hf _ A2)).
        + intros l [[[[H1 H2]|H1] H3]|H1]; auto. destruct (existsb (fun d => match is_univariate l with Some (g, _) => if fn_eq_dec g (FEps i) then true else false | None => false end) [0]) eqn:E.
          * destruct (is_univariate l) as [[g d]|] eqn:Hu; [|discriminate]. destruct (fn_eq_dec g (FEps i)) as [->|]; [|discriminate].
            destruct (in_dec jets_eq_dec l (exp_atoms p)) as [Hl|Hl].
            -- apply averaged_iff in Hl. right. apply univariate_iff in Hu; [|intros j Hj; apply (Hp l Hl j Hj)]. destruct (D l d Hl Hu). exact (H2 d Hu H H0).
            -- left. split; [exact H1|]. intros f d' _ Hl'. apply averaged_iff in Hl'. contradiction.
          * left. split; [exact H1|]. intros f d [<-|Hf'] Hl; [|exact (H3 f d Hf' Hl)]. intros Hu. apply univariate_iff in Hu; [|intros j Hj; apply (Hp l Hl j Hj)].
            rewrite Hu in E. cbn [existsb] in E. destruct (fn_eq_dec (FEps i) (FEps i)); [discriminate|congruence].
        + eapply avs_weaken; [|exact A1]. intros l [[H _]|H]; auto. }
    assert (A0 : avs (fun l => averaged_in l p) p) by (apply avs_iff; auto).
    assert (A1 : avs (fun l => averaged_in l p \/ normal l) p) by (apply avs_iff; auto).
    eapply avs_weaken; [|exact (G _ _ _ A1 HF _ A0)]. intros l [[H1 H2]|H]; auto. left. split; [exact H1|]. intros f d Hu. apply (H2 f d); auto.
    apply (Permutation_in _ (Permutation_sym (HenumU _))). apply check_keys. exists l, d. split; [apply averaged_iff, H1|].
    apply univariate_iff; [intros j Hj; apply (Hp l H1 j Hj)|exact Hu].
  Qed.
  Lemma apply_reduced p q : (forall l, averaged_in l p -> forall j, In j l -> normalised_error n (fst j) /\ spatial coords (snd j)) -> averages_sorted p ->
    apply_internal_closure enum enumD enumC enumU coords eqs p = Ok q -> forall l, averaged_in l q -> reduced n l.
  Proof.
    intros Hp Hs Hq.
    assert (Hp' : forall l, averaged_in l p -> forall j, In j l -> is_random (fst j) = true /\ spatial coords (snd j)).
    { intros l Hl j Hj. destruct (Hp l Hl j Hj) as [(i & _ & ->) H]. split; [reflexivity|exact H]. }
    pose proof (apply_avs p q Hp' Hq) as HA. intros l Hl. apply (proj1 (avs_iff _ q) HA) in Hl. destruct Hl as [[[Hl Hu]|Hl] Hk].
    - destruct (Hs l Hl) as (HJ & Hn0 & H1). split; [|split; [intros j Hj; apply (Hp l Hl j Hj)|]].
      + destruct l as [|j [|j' l]]; [congruence| |cbn; lia]. exfalso. destruct (Hp _ Hl j (or_introl eq_refl)) as [(i & Hi & Hf) _]. apply Hk.
        left. exists i. split; [exact Hi|]. right. specialize (H1 j eq_refl). destruct j as [f w]. cbn [fst snd] in *. subst. reflexivity.
      + intros i w j w' ->. left. destruct (Hp _ Hl (FEps i, w) (or_introl eq_refl)) as [(i' & Hi & Hi') _]. destruct (Hp _ Hl (FEps j, w') (or_intror (or_introl eq_refl))) as [(j' & Hj & Hj') _].
        cbn [fst] in Hi', Hj'. injection Hi' as <-. injection Hj' as <-. destruct (Nat.eq_dec i j) as [<-|Hij].
        * exfalso. destruct (Nat.eq_dec (List.length w + List.length w') 0) as [E|E].
          -- destruct w; [|discriminate]. destruct w'; [|discriminate]. apply Hk. right. right. right. exists i, []. split; [exact Hi|]. split; [apply spatial_word_iff, spatial_nil|]. split; [cbn; lia|reflexivity].
          -- apply (Hu (FEps i) (List.length w + List.length w')). exists w, w'. split; [symmetry; exact HJ|]. split; [reflexivity|]. split; [reflexivity|lia].
        * split; [exact Hij|]. destruct w as [|c w]; [|left; discriminate]. destruct w' as [|c w']; [|right; discriminate]. exfalso.
          assert (Hlt : i < j \/ j < i) by lia. destruct Hlt as [Hlt|Hlt]; [apply Hk; right; right; left; exists i, j; auto|].
          pose proof (epss_key j i (Nat.lt_le_incl _ _ Hlt)) as E1.
          assert (E2 : jkey [(FEps i, []); (FEps j, [])] = jkey [(FEps j, []); (FEps i, [])]).
          { rewrite E1. unfold jkey, mmul, mins. cbn [map fold_right fst snd inverse insert_atom].
            assert (L : atom_lt (AJet (FEps j) []) (AJet (FEps i) []) = true).
            { unfold atom_lt, acode, jcode, fcode. cbn. unfold ncode. destruct (N.ltb_spec (N.of_nat j) (N.of_nat i)); [reflexivity|lia]. }
            rewrite L. reflexivity. }
          rewrite HJ, E1 in E2. congruence.
    - destruct Hl as (i & w & Hi & Hw & ->). split; [cbn; lia|]. split; [intros j [<-|[<-|[]]]; exists i; auto|].
      intros i' w1 j w2 [= <- <- <- <-]. right. split; [reflexivity|]. split; [reflexivity|].
      destruct (Nat.le_gt_cases 4 (List.length w)) as [H|H]; [exact H|]. exfalso. apply Hk. right. right. right. exists i, w.
      split; [exact Hi|]. split; [apply spatial_word_iff, Hw|]. split; [lia|reflexivity].
  Qed.
End Normal.
