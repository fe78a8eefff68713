(** The systems of SymbolicPKF are explicit: their right-hand sides only contain spatial derivatives. *)
From Coq Require Import List Arith ZArith QArith Bool String Permutation Sorted Lia.
From Verif Require Import PyBase PyBaseFacts PartialOrderModel PartialOrderSpec PartialOrderProofs TreeModel TreeSpec TreeProofs
  PKFModel PKFSpec PKFAlg PKFAtoms PKFClosure PKFProofs PKFInv TreeMore TreeProps PKFShape PKFMore PKFWords PKFTime PKFTimeSpec.
Import ListNotations.
Close Scope Q_scope.
Close Scope Z_scope.
Open Scope nat_scope.
Open Scope string_scope.
Open Scope list_scope.

Notation none := (fun _ : fn => False).
Lemma spatial_word_iff coords w : spatial coords w <-> spatial_word coords w.
Proof.
  unfold spatial, spatial_word. split; intros [H1 H2]; (split; [|exact H2]); clear H2.
  - induction H1 as [|c w Hc Hw IH]; constructor; [exact IH|]. apply Forall_forall. exact Hc.
  - induction H1 as [|c w Hw IH Hc]; constructor; [|exact IH]. rewrite Forall_forall in Hc. exact Hc.
Qed.
Lemma is_ext_iff f : is_ext f = true <-> external f.
Proof. split; [destruct f; try discriminate; intros _; eexists; eexists; reflexivity|intros (k & d & ->); reflexivity]. Qed.
Lemma T0_iff coords p : pall (timed coords none) p <-> spatial_poly coords p.
Proof.
  split; intros H c m.
  - intros a Hm Ha. specialize (H c m Hm a Ha). destruct a as [f w|w l|k| |i|i]; try exact I; cbn [timed] in H.
    + destruct H as [H|[H|[[] _]]]; [left; apply is_ext_iff, H|right; apply spatial_word_iff, H].
    + destruct H as (H1 & H2 & [H3|(f & w0 & r & _ & [] & _)]). split; [apply spatial_word_iff, H1|].
      intros j Hj. split; [apply H2, Hj|apply spatial_word_iff, H3, Hj].
  - intros Hm a Ha. specialize (H c m a Hm Ha). destruct a as [f w|w l|k| |i|i]; try exact I; cbn [timed].
    + destruct H as [H|H]; [left; apply is_ext_iff, H|right; left; apply spatial_word_iff, H].
    + destruct H as [H1 H2]. split; [apply spatial_word_iff, H1|]. split; [intros j Hj; apply (H2 j Hj)|left; intros j Hj; apply spatial_word_iff, (H2 j Hj)].
Qed.

Section Explicit.
  Variables (enum : list mi -> list mi) (enumD : tdict -> tdict) (enumC : edict -> edict)
    (enumF : list (fn * poly) -> list (fn * poly)) (enumU : list fn -> list fn).
  Variables (coords : list string) (eqs : list poly).
  Hypothesis Henum : forall l, Permutation (enum l) l.
  Hypothesis HenumD : forall l, Permutation (enumD l) l.
  Hypothesis HenumC : forall l, Permutation (enumC l) l.
  Hypothesis HenumF : forall l, Permutation (enumF l) l.
  Hypothesis HenumU : forall l, Permutation (enumU l) l.
  Hypothesis Hcoords : NoDup coords.
  Hypothesis Hne : coords <> [].
  Hypothesis HU : user_system eqs.
  Hypothesis Ht : ~ In "t" coords.
  Notation n := (List.length eqs).
  Notation T := (timed coords).
  Notation T0 := (pall (timed coords none)).
  Hypothesis HW : forall p, In p eqs -> T0 p.

  Lemma T0_pair_jets i w w' : spatial coords w -> spatial coords w' -> T0 [(1%Q, [AExp [] (jkey [(FEps i, w); (FEps i, w')])])].
  Proof.
    intros H1 H2. assert (HP := jkey2_perm (FEps i) (FEps i) w w' eq_refl eq_refl). apply pall_atom.
    split; [apply spatial_nil|]. split; [|left]; intros j Hj; apply (Permutation_in _ HP) in Hj; destruct Hj as [<-|[<-|[]]]; try reflexivity; assumption.
  Qed.
  Lemma skewness_T0 i p l v : p_coords p = coords -> skewness_entry coords i p = Ok (l, v) -> T0 v.
  Proof.
    intros Hp H. unfold skewness_entry in H. pose proof (as_sequence_in p) as Hin. rewrite Hp in Hin.
    destruct (as_sequence p) as [|k [|a [|b [|]]]]; try discriminate. unfold skewness_subs in H.
    destruct (metric_of coords i k b) as [g1|]; cbn [bind] in H; [|discriminate].
    destruct (metric_of coords i a k) as [g2|]; cbn [bind] in H; [|discriminate].
    destruct (metric_of coords i a b) as [g3|]; cbn [bind] in H; [|discriminate].
    apply Ok_inj, pair_inj in H. destruct H as [_ <-]. apply pscale_all.
    repeat apply padd_all; apply timed_good, spatial_one, Hin; cbn; auto.
  Qed.
  Lemma field_closure_T0 i d : field_closure enum coords i = Ok d -> forall l v, In (l, v) d -> T0 v.
  Proof.
    unfold field_closure. destruct (C37_all_of_degree enum coords 3 Henum Hne) as (ps & -> & _ & Hps). cbn [bind].
    destruct (mapM (skewness_entry coords i) (map (mkPod coords) ps)) as [sk|] eqn:Hsk; cbn [bind]; [|discriminate].
    intros H l v Hin. apply Ok_inj in H. subst d. apply in_app_iff in Hin. destruct Hin as [Hin|Hin].
    2:{ destruct (mapM_in _ _ _ _ Hsk Hin) as (p & Hp & He). apply in_map_iff in Hp. destruct Hp as (o & <- & _). exact (skewness_T0 i (mkPod coords o) l v eq_refl He). }
    apply in_app_iff in Hin. destruct Hin as [[H|[H|[H|[H|[]]]]]|Hin].
    - apply pair_inj in H. destruct H as [_ <-]. apply pall_nil.
    - apply pair_inj in H. destruct H as [_ <-]. apply timed_fn.
    - apply pair_inj in H. destruct H as [_ <-]. apply pall_nil.
    - apply pair_inj in H. destruct H as [_ <-]. apply pone_all.
    - apply in_app_iff in Hin. destruct Hin as [Hin|Hin]; apply in_map_iff in Hin; destruct Hin as (c & H & _); apply pair_inj in H; destruct H as [_ <-].
      + apply pall_nil. + apply pscale_all, timed_fn.
  Qed.
  Lemma internal_T0 cl : internal_closure enum coords eqs = Ok cl -> forall l v, In (l, v) cl -> T0 v.
  Proof.
    unfold internal_closure. destruct (mapM (field_closure enum coords) (fields eqs)) as [ds|] eqn:Hds; cbn [bind]; [|discriminate].
    intros H. apply Ok_inj in H. subst cl.
    change (fold_left _ (couples eqs) (fold_left dupdate ds [])) with (fold_left cov_step (couples eqs) (fold_left dupdate ds [])).
    assert (G : forall l d, (forall k v, In (k, v) d -> T0 v) -> forall k v, In (k, v) (fold_left cov_step l d) -> T0 v).
    { induction l as [|[i j] l IH]; intros d Hd; cbn [fold_left]; [exact Hd|]. apply IH. intros k v Hin. unfold cov_step in Hin.
      apply in_dset in Hin. destruct Hin as [[_ ->]|Hin].
      - apply pmulm_all; [intros a [<-|[<-|[]]]; exact I|apply timed_fn].
      - apply in_dset in Hin. destruct Hin as [[_ ->]|Hin]; [apply timed_fn|exact (Hd k v Hin)]. }
    apply G. intros k v Hin. apply in_dupdates in Hin. destruct Hin as [[]|(d & Hd & Hin)].
    destruct (mapM_in _ _ _ _ Hds Hd) as (i & _ & He). exact (field_closure_T0 i d He k v Hin).
  Qed.
  Lemma exps_T0 d p : (forall l v, In (l, v) d -> T0 v) -> T0 p -> T0 (sub_exps (enumC d) p).
  Proof. intros Hd. apply (sub_exps_T0 coords). intros l v Hin. apply (Hd l v), (Permutation_in _ (HenumC d)), Hin. Qed.
  Lemma fns_T0 d p : (forall f v, In (f, v) d -> is_ext f = false /\ T0 v) -> T0 p -> T0 (sub_fns (enumF d) p).
  Proof. intros Hd. apply (sub_fns_T0 coords). intros f v Hin. apply (Hd f v), (Permutation_in _ (HenumF d)), Hin. Qed.

  Lemma reynolds_T0 i : i < n -> T0 (snd (reynolds enumF eqs i)).
  Proof.
    intros Hi. cbn [reynolds snd]. apply filter_all, fns_T0; [|apply HW, nth_In, Hi].
    intros f v Hin. apply in_map_iff in Hin. destruct Hin as (j & H & _). apply pair_inj in H. destruct H as [<- <-]. split; [reflexivity|].
    apply padd_all; [apply timed_fn|]. apply pmulm_all; [intros a [<-|[]]; exact I|apply timed_fn].
  Qed.
  Lemma subs_error_T0 p : T0 p -> T0 (sub_fns (enumF (subs_error eqs)) p).
  Proof.
    apply fns_T0. intros f v Hin. apply in_map_iff in Hin. destruct Hin as (j & H & _). apply pair_inj in H. destruct H as [<- <-]. split; [reflexivity|].
    apply pmulm_all; [intros a [<-|[]]; exact I|apply timed_fn].
  Qed.
  Lemma expectation_T0 s : expectation_system enum enumC enumF coords eqs = Ok s -> forall q, In q s -> T0 (snd q).
  Proof.
    unfold expectation_system. destruct (internal_closure enum coords eqs) as [cl|] eqn:Hcl; cbn [bind]; [|discriminate].
    intros H q Hq. apply Ok_inj in H. subst s. unfold second_order_reynolds in Hq. rewrite map_map in Hq. apply in_map_iff in Hq. destruct Hq as (i & <- & Hi).
    apply fields_in in Hi. cbn [on_eq snd]. apply exps_T0; [apply internal_T0, Hcl|].
    apply subs_error_T0, T0_expect, small_one_all, reynolds_T0, Hi.
  Qed.
  Lemma error_T0 s : error_system enum enumC enumF coords eqs = Ok s -> forall q, In q s -> T0 (snd q).
  Proof.
    unfold error_system, tl_expectation_system. destruct (internal_closure enum coords eqs) as [cl|] eqn:Hcl; cbn [bind]; [|discriminate].
    intros H q Hq. apply Ok_inj in H. subst s. apply in_map_iff in Hq. destruct Hq as ([q1 q2] & <- & Hq). cbn [fst snd].
    unfold first_order_reynolds in Hq. rewrite map_map in Hq.
    pose proof (in_combine_l _ _ _ _ Hq) as H1. pose proof (in_combine_r _ _ _ _ Hq) as H2. apply in_map_iff in H1, H2.
    destruct H1 as (i & <- & Hi), H2 as (j & <- & Hj). apply fields_in in Hi, Hj. cbn [on_eq snd].
    apply psub_all; [apply small_one_all, filter_all, reynolds_T0, Hi|]. apply exps_T0; [apply internal_T0, Hcl|].
    apply T0_expect, small_one_all, filter_all, reynolds_T0, Hj.
  Qed.

  Lemma tree_value_T0 i e : eok coords e -> T0 (tree_value coords i e).
  Proof.
    intros He. unfold tree_value. apply psum_all. intros q Hq. apply in_map_iff in Hq. destruct Hq as ([[c ds] k] & <- & Hin).
    apply pscale_all, timed_derivs'; [exact (He _ _ _ Hin)|]. apply T0_pair_jets; apply spatial_word_of.
  Qed.
  Lemma closed_tree_T0 cl i k d : (forall l v, In (l, v) cl -> T0 v) -> closed_tree enum enumD enumC coords cl i k = Ok d -> forall l v, In (l, v) d -> T0 v.
  Proof.
    intros Hcl. unfold closed_tree. destruct (fst (tree_call enum enumD true coords tree_init (Some k))) as [rules|] eqn:HR; cbn [bind]; [|discriminate].
    intros H l v Hin. apply Ok_inj in H. subst d. apply in_map_iff in Hin. destruct Hin as ([k0 e] & H & Hin). apply pair_inj in H. destruct H as [_ <-].
    apply exps_T0; [exact Hcl|]. apply tree_value_T0. cbn [snd]. exact (tree_derivatives enum enumD true coords Henum HenumD Hne k rules HR k0 e Hin).
  Qed.
  Lemma apply_T0 p q : T0 p -> apply_internal_closure enum enumD enumC enumU coords eqs p = Ok q -> T0 q.
  Proof.
    intros Hp. unfold apply_internal_closure. destruct (internal_closure enum coords eqs) as [cl|] eqn:Hcl; cbn [bind]; [|discriminate].
    pose proof (internal_T0 cl Hcl) as Hc. destruct (existsb _ _); [discriminate|]. set (step := fun (p0 : poly) (f : fn) => _).
    destruct (foldM step p (enumU (dkeys (check_univariate p)))) as [p'|] eqn:HF; cbn [bind]; [|discriminate].
    intros H. apply Ok_inj in H. subst q. apply exps_T0; [exact Hc|].
    refine (foldM_inv (fun p => T0 p) _ _ _ _ _ Hp HF). intros s f s' _ Hs Hstep. unfold step in Hstep.
    destruct (field_of eqs f) as [i|]; [|discriminate]. destruct (dgetE fn_eq_dec f (check_univariate p)) as [ns|]; cbn [bind] in Hstep; [|discriminate].
    destruct (closed_tree enum enumD enumC coords cl i (fold_right Nat.max 0 ns)) as [t|] eqn:Htr; cbn [bind] in Hstep; [|discriminate].
    apply Ok_inj in Hstep. subst s'. apply exps_T0; [exact (closed_tree_T0 cl i _ t Hc Htr)|exact Hs].
  Qed.

  (** *** trends *)
  Lemma trends_T0 s fs d (K : fn -> Prop) : map fst s = map time_derivative fs -> (forall q, In q s -> T0 (snd q)) ->
    (forall f, In f fs -> is_ext f = false) -> trend_dict s = Ok d ->
    forall p, pall (T K) p -> pall (T (fun f => K f /\ ~ In f fs)) (sub_trends (enumF d) p).
  Proof.
    intros H1 H2 H3 Hd p Hp. rewrite (trend_dict_ok s fs H1) in Hd. apply Ok_inj in Hd. subst d.
    assert (Hk : map fst (combine fs (map snd s)) = fs).
    { assert (L : List.length fs = List.length s) by (apply (f_equal (@List.length _)) in H1; rewrite !map_length in H1; symmetry; exact H1).
      clear - L. revert s L. induction fs as [|f fs IH]; intros [|q s] L; try discriminate; [reflexivity|]. cbn [map combine fst]. rewrite IH by (injection L as L; exact L). reflexivity. }
    eapply pall_weaken; [|apply (sub_trends_timed coords Ht K (enumF (combine fs (map snd s))))].
    - intros a. apply timed_mono. intros f [Hf Hn]. split; [exact Hf|]. intros Hin. apply Hn.
      apply (Permutation_in _ (Permutation_map fst (Permutation_sym (HenumF _)))). rewrite Hk. exact Hin.
    - intros f v Hin. apply (Permutation_in _ (HenumF _)) in Hin. split; [apply H3, (in_combine_l _ _ _ _ Hin)|].
      apply in_combine_r, in_map_iff in Hin. destruct Hin as (q & <- & Hq). apply H2, Hq.
    - exact Hp.
  Qed.
  Lemma trends_none (K : fn -> Prop) fs p : (forall f, K f -> In f fs) -> pall (T (fun f => K f /\ ~ In f fs)) p -> T0 p.
  Proof. intros H. apply pall_weaken. intros a. apply timed_mono. intros f [Hf Hn]. exact (Hn (H f Hf)). Qed.
  Lemma pair_timed (K : fn -> Prop) f g w w' : is_random f = true -> is_random g = true -> spatial coords w -> spatial coords w' -> K f -> K g ->
    pall (T K) (expect (pderiv "t" (pmul (pjet f w) (pjet g w')))).
  Proof.
    intros Hf Hg Hw Hw' Kf Kg c m Hm a Ha. destruct (pair_trend f g w w' Hf Hg c m Hm) as (l & -> & HP). destruct Ha as [<-|[]].
    split; [apply spatial_nil|]. split.
    - intros j Hj. destruct HP as [HP|HP]; apply (Permutation_in _ HP) in Hj; destruct Hj as [<-|[<-|[]]]; assumption.
    - right. destruct HP as [HP|HP].
      + exists f, w, [(g, w')]. split; [exact HP|]. split; [exact Kf|]. split; [exact Hw|]. split; [discriminate|]. intros j [<-|[]]; exact Hw'.
      + exists g, w', [(f, w)]. split; [rewrite HP; constructor|]. split; [exact Kg|]. split; [exact Hw'|]. split; [discriminate|]. intros j [<-|[]]; exact Hw.
  Qed.
  Lemma fields_ext (g : nat -> fn) f : (forall i, is_ext (g i) = false) -> In f (map g (fields eqs)) -> is_ext f = false.
  Proof. intros H Hf. apply in_map_iff in Hf. destruct Hf as (i & <- & _). apply H. Qed.
  Lemma fields_key (g : nat -> fn) i : i < n -> In (g i) (map g (fields eqs)).
  Proof. intros Hi. apply in_map, fields_in, Hi. Qed.

  Lemma error_pair es d i j : error_system enum enumC enumF coords eqs = Ok es -> trend_dict es = Ok d -> i < n -> j < n ->
    T0 (sub_fns (enumF (subs_error eqs)) (sub_trends (enumF d) (expect (pderiv "t" (pmul (pfn (FErr i)) (pfn (FErr j))))))).
  Proof.
    intros Hes Hd Hi Hj. apply subs_error_T0. destruct (error_ok enum enumC enumF no_tensor coords eqs) as (es' & Hes' & Hl & _); auto.
    rewrite Hes' in Hes. apply Ok_inj in Hes. subst es'.
    apply (trends_none (fun f => f = FErr i \/ f = FErr j) (map FErr (fields eqs))); [intros f [->| ->]; apply fields_key; assumption|].
    apply (trends_T0 es _ d _ Hl (error_T0 es Hes') (fun f => fields_ext FErr f (fun _ => eq_refl)) Hd).
    apply pair_timed; auto; apply spatial_nil.
  Qed.
  Lemma variance_T0 s : variance_system enum enumD enumC enumF enumU coords eqs = Ok s -> forall q, In q s -> T0 (snd q).
  Proof.
    unfold variance_system. destruct (error_system enum enumC enumF coords eqs) as [es|] eqn:Hes; cbn [bind]; [|discriminate].
    destruct (trend_dict es) as [d|] eqn:Hd; cbn [bind]; [|discriminate]. intros H q Hq.
    destruct (mapM_in _ _ _ _ H Hq) as (i & Hi & Hv). apply fields_in in Hi. unfold variance_equation in Hv.
    destruct (apply_internal_closure _ _ _ _ _ _ _) as [r|] eqn:Hr; cbn [bind] in Hv; [|discriminate]. apply Ok_inj in Hv. subst q. cbn [snd].
    refine (apply_T0 _ r _ Hr). exact (error_pair es d i i Hes Hd Hi Hi).
  Qed.
  Lemma covariance_T0 s : cross_covariance_system enum enumD enumC enumF enumU coords eqs = Ok s -> forall q, In q (optional s) -> T0 (snd q).
  Proof.
    unfold cross_covariance_system. destruct (Nat.eqb _ _); [intros H q Hq; apply Ok_inj in H; subst s; destruct Hq|].
    destruct (error_system enum enumC enumF coords eqs) as [es|] eqn:Hes; cbn [bind]; [|discriminate].
    destruct (trend_dict es) as [d|] eqn:Hd; cbn [bind]; [|discriminate].
    destruct (mapM _ _) as [l|] eqn:Hm; cbn [bind]; [|discriminate]. intros H q Hq. apply Ok_inj in H. subst s. cbn [optional] in Hq.
    destruct (mapM_in _ _ _ _ Hm Hq) as ([i j] & Hij & Hv). apply couples_in in Hij. unfold covariance_equation in Hv.
    destruct (internal_closure enum coords eqs) as [cl|]; cbn [bind] in Hv; [|discriminate].
    destruct (dgetE _ _ _) as [V|]; cbn [bind] in Hv; [|discriminate].
    destruct (apply_internal_closure _ _ _ _ _ _ _) as [r|] eqn:Hr; cbn [bind] in Hv; [|discriminate]. apply Ok_inj in Hv. subst q. cbn [snd].
    refine (apply_T0 _ r _ Hr). apply (error_pair es d i j Hes Hd); lia.
  Qed.
  Lemma epsilon_T0 s : epsilon_system enum enumD enumC enumF enumU coords eqs = Ok s -> forall q, In q s -> T0 (snd q).
  Proof.
    unfold epsilon_system. destruct (error_ok enum enumC enumF no_tensor coords eqs) as (es & Hes & Hle & _); auto.
    destruct (variance_ok enum enumD enumC enumF enumU no_tensor coords eqs) as (vs & Hvs & Hlv & _); auto.
    rewrite Hes. cbn [bind]. destruct (trend_dict es) as [d|] eqn:Hd; cbn [bind]; [|discriminate].
    rewrite Hvs. cbn [bind]. destruct (trend_dict vs) as [dv|] eqn:Hdv; cbn [bind]; [|discriminate].
    intros H q Hq. apply Ok_inj in H. subst s. apply in_map_iff in Hq. destruct Hq as (i & <- & Hi). apply fields_in in Hi.
    unfold epsilon_equation. cbn [snd]. apply subs_error_T0.
    set (K := fun f => f = FErr i \/ f = FVar i).
    apply (trends_none (fun f => K f /\ ~ In f (map FErr (fields eqs))) (map FVar (fields eqs))).
    { intros f [[->| ->] Hn]; [destruct Hn; apply fields_key, Hi|apply fields_key, Hi]. }
    apply (trends_T0 vs _ dv _ Hlv (variance_T0 vs Hvs) (fun f => fields_ext FVar f (fun _ => eq_refl)) Hdv).
    apply (trends_T0 es _ d _ Hle (error_T0 es Hes) (fun f => fields_ext FErr f (fun _ => eq_refl)) Hd).
    apply timed_trend. apply pmulm_all; [intros a [<-|[]]; right; reflexivity|]. apply pall_atom. split; [apply spatial_nil|left; reflexivity].
  Qed.
  Lemma coord_good a : a < List.length coords -> spatial coords [coord coords a].
  Proof. intros H. apply spatial_one. apply nth_In, H. Qed.
  Lemma metric_T0 s : metric_system enum enumD enumC enumF enumU coords eqs = Ok s -> forall q, In q s -> T0 (snd q).
  Proof.
    unfold metric_system. destruct (epsilon_ok enum enumD enumC enumF enumU no_tensor coords eqs) as (es & Hes & Hl & _); auto.
    rewrite Hes. cbn [bind]. destruct (trend_dict es) as [d|] eqn:Hd; cbn [bind]; [|discriminate]. intros H q Hq.
    destruct (mapM_in _ _ _ _ H Hq) as ([i [a b]] & Hi & Hv). apply indices_in in Hi. unfold metric_equation in Hv.
    destruct (apply_internal_closure _ _ _ _ _ _ _) as [r|] eqn:Hr; cbn [bind] in Hv; [|discriminate]. apply Ok_inj in Hv. subst q. cbn [snd].
    refine (apply_T0 _ r _ Hr).
    apply (trends_none (fun f => f = FEps i) (map FEps (fields eqs))); [intros f ->; apply fields_key, Hi|].
    apply (trends_T0 es _ d _ Hl (epsilon_T0 es Hes) (fun f => fields_ext FEps f (fun _ => eq_refl)) Hd).
    apply pair_timed; auto; apply coord_good; lia.
  Qed.

  (** *** closure, cleaning, tensors *)
  Variable closure : edict.
  Hypothesis HC : forall l v, In (l, v) closure -> T0 v.
  Lemma apply_closure_T0 s : (forall q, In q s -> T0 (snd q)) -> forall q, In q (apply_closure enumC closure s) -> T0 (snd q).
  Proof.
    intros H q Hq. unfold apply_closure in Hq. destruct closure as [|kv r] eqn:E; [exact (H q Hq)|]. rewrite <- E in *.
    apply in_map_iff in Hq. destruct Hq as (q0 & <- & Hq). cbn [on_eq snd]. apply exps_T0; auto.
  Qed.
  Lemma clean_T0 s : (forall q, In q s -> T0 (snd q)) -> forall q, In q (clean enumF eqs s) -> T0 (snd q).
  Proof.
    intros H q Hq. unfold clean in Hq. apply in_map_iff in Hq. destruct Hq as (q0 & <- & Hq). cbn [on_eq snd]. apply fns_T0; auto.
    intros f v Hin. apply in_map_iff in Hin. destruct Hin as (i & Hi & _). apply pair_inj in Hi. destruct Hi as [<- <-]. split; [reflexivity|apply timed_fn].
  Qed.
  Lemma in_metric_T0 s : in_metric enum enumD enumC enumF enumU coords eqs closure = Ok s -> forall q, In q s -> T0 (snd q).
  Proof.
    unfold in_metric. destruct (expectation_system _ _ _ _ _) as [e|] eqn:He; cbn [bind]; [|discriminate].
    destruct (variance_system _ _ _ _ _ _ _) as [v|] eqn:Hv; cbn [bind]; [|discriminate].
    destruct (cross_covariance_system _ _ _ _ _ _ _) as [c|] eqn:Hc; cbn [bind]; [|discriminate].
    destruct (metric_system _ _ _ _ _ _ _) as [m|] eqn:Hm; cbn [bind]; [|discriminate].
    intros H q Hq. apply Ok_inj in H. subst s. rewrite !in_app_iff in Hq.
    destruct Hq as [Hq|[Hq|[Hq|Hq]]]; revert q Hq; apply clean_T0, apply_closure_T0;
      [apply expectation_T0, He|apply variance_T0, Hv|apply covariance_T0, Hc|apply metric_T0, Hm].
  Qed.
  Lemma in_tensor_T0 tensor inv scale factor cov s :
    in_tensor enum enumD enumC enumF enumU coords eqs closure tensor inv scale factor cov = Ok s -> forall q, In q s -> T0 (snd q).
  Proof.
    unfold in_tensor. destruct (metric_ok enum enumD enumC enumF enumU no_tensor coords eqs) as (m & Hm & Hl & _); auto. rewrite Hm. cbn [bind].
    destruct (trend_dict (apply_closure enumC closure m)) as [d|] eqn:Hd; cbn [bind]; [|discriminate].
    destruct (expectation_system _ _ _ _ _) as [e|] eqn:He; cbn [bind]; [|discriminate].
    destruct (variance_system _ _ _ _ _ _ _) as [v|] eqn:Hv; cbn [bind]; [|discriminate].
    destruct (if cov then _ else _) as [c|] eqn:Hc; cbn [bind]; [|discriminate].
    assert (Hmtt : forall p, T0 p -> T0 (sub_fns (enumF (metric_to_tensor coords eqs inv scale)) p)).
    { intros p. apply fns_T0. intros f w Hin. unfold metric_to_tensor in Hin. apply in_flat_map in Hin. destruct Hin as (i & _ & Hin).
      apply in_map_iff in Hin. destruct Hin as ([a b] & H & _). apply pair_inj in H. destruct H as [<- <-].
      split; [unfold metric; destruct (Nat.ltb _ _); reflexivity|apply pscale_all, timed_fn]. }
    assert (Hcc : forall q, In q (optional c) -> T0 (snd q)).
    { destruct cov; [apply covariance_T0, Hc|]. apply Ok_inj in Hc. subst c. intros q []. }
    intros H q Hq. apply Ok_inj in H. subst s. revert q Hq. apply clean_T0. intros q Hq. apply in_app_iff in Hq. destruct Hq as [Hq|Hq].
    - apply in_map_iff in Hq. destruct Hq as (q0 & <- & Hq). cbn [on_eq snd]. apply Hmtt. rewrite !in_app_iff in Hq.
      destruct Hq as [Hq|[Hq|Hq]]; revert q0 Hq; apply apply_closure_T0; [apply expectation_T0, He|apply variance_T0, Hv|exact Hcc].
    - apply in_map_iff in Hq. destruct Hq as ([i [a b]] & <- & Hi). apply indices_in in Hi. unfold tensor_equation. cbn [snd]. apply Hmtt.
      set (fs := map (fun iab => FMet (fst iab) (fst (snd iab)) (snd (snd iab))) (metric_indices coords eqs)).
      assert (Hla : map fst (apply_closure enumC closure m) = map time_derivative fs).
      { unfold apply_closure. destruct closure as [|kv r] eqn:E; [exact Hl|]. rewrite map_map. cbn [on_eq fst].
        transitivity (map (sub_exps (enumC (kv :: r))) (map fst m)); [rewrite map_map; reflexivity|]. rewrite Hl. fold fs. rewrite map_map.
        apply map_ext. intros f. apply td_sub_exps. }
      apply (trends_none (fun f => In f fs) fs); [auto|].
      refine (trends_T0 _ fs d (fun f => In f fs) Hla (apply_closure_T0 _ (metric_T0 m Hm)) _ Hd _ _).
      { intros f Hf. unfold fs in Hf. apply in_map_iff in Hf. destruct Hf as (x & <- & _). reflexivity. }
      unfold tensor_trend. apply pscale_all, psum_all. intros p Hp. apply in_flat_map in Hp. destruct Hp as (x & Hx & Hp).
      apply in_map_iff in Hp. destruct Hp as (y & <- & Hy). apply in_seq in Hx, Hy. unfold dim in Hx, Hy.
      repeat apply pmul_all; try apply timed_fn. apply timed_jet. right. right. split.
      + unfold fs, metric. destruct (Nat.ltb_spec y x).
        * apply in_map_iff. exists (i, (y, x)). split; [reflexivity|]. apply indices_in. lia.
        * apply in_map_iff. exists (i, (x, y)). split; [reflexivity|]. apply indices_in. lia.
      + exists []. split; [apply spatial_nil|reflexivity].
  Qed.
End Explicit.
