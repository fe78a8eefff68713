(** The right-hand sides of the systems of SymbolicPKF are the rates of change of the statistics. *)
From Coq Require Import List Arith Ring ZArith QArith Qcanon Bool String Permutation Lia.
From Verif Require Import PyBase PyBaseFacts PartialOrderModel TreeModel Reynolds PKFModel PKFSpec PKFAlg PKFAtoms PKFTaylor PKFClosure
  PKFProofs PKFTensor PKFInv PKFShape PKFMore PKFMain PKFWords PKFTime PKFTimeSpec PKFExplicit PKFVal PKFRateSpec.
Import ListNotations.
Close Scope Q_scope.
Close Scope Qc_scope.
Close Scope Z_scope.
Open Scope nat_scope.
Open Scope string_scope.
Open Scope list_scope.

Section Rates.
  Context {A : RAlg} (E : env A).
  Add Ring A_ring9 : (c_th A).
  Open Scope ra_scope.
  Notation qq c := (cq (Q2Qc c)).
  Variables (enum : list mi -> list mi) (enumD : tdict -> tdict) (enumC : edict -> edict)
    (enumF : list (fn * poly) -> list (fn * poly)) (enumU : list fn -> list fn).
  Variables (coords : list string) (eqs : list poly).
  Hypothesis Henum : forall l, Permutation (enum l) l.
  Hypothesis HenumD : forall l, Permutation (enumD l) l.
  Hypothesis HenumC : forall l, Permutation (enumC l) l.
  Hypothesis HenumF : forall l, Permutation (enumF l) l.
  Hypothesis HenumU : forall l, Permutation (enumU l) l.
  Hypothesis Hcoords : NoDup coords.
  Hypothesis Hne : coords <> [].
  Hypothesis Ht : ~ In "t" coords.
  Hypothesis HU : user_system eqs.
  Notation n := (List.length eqs).
  Notation T0 := (pall (timed coords none)).
  Hypothesis HW : forall p, In p eqs -> T0 p.
  Hypothesis HS : statistics coords n E.

  Let HE : algebraic E := st_algebraic E coords _ HS.
  Let HA : averaged E := st_averaged E coords _ HS.
  Notation err i := (e_fn E (FErr i)).
  Notation eps i := (e_fn E (FEps i)).
  Notation T i := (error_rate E eqs i).
  Notation X i := (normalised_rate E eqs i).
  Notation R := (rate E coords eqs).
  Notation J0 := (fun _ : fn => (0 : A)).

  Lemma J0_admissible : admissible J0.
  Proof. split; intros; [apply det_0|apply EE_0]. Qed.
  Lemma error_rate_centred i : EE (T i) = 0.
  Proof. exact (proj2 (expansion_det E coords eqs HS (nth i eqs []))). Qed.
  Lemma normalised_rate_centred i : EE (X i) = 0.
  Proof.
    assert (Hi : det (e_isig E i)) by apply (isig_det E HE HA).
    assert (Hd : det (deviation_rate E eqs i)) by (apply det_mul; [apply det_mul; [apply det_cq|exact Hi]|apply det_EE]).
    unfold normalised_rate.
    replace (e_isig E i * T i - e_isig E i * e_isig E i * deviation_rate E eqs i * err i)
      with (e_isig E i * T i + (- (1)) * (e_isig E i * e_isig E i * deviation_rate E eqs i * err i)) by ring.
    rewrite EE_add, (EE_det_l (e_isig E i)) by exact Hi. rewrite error_rate_centred.
    rewrite (EE_det_l (- (1))). 2:{ rewrite <- qq_m1. apply det_cq. }
    rewrite (EE_det_l (e_isig E i * e_isig E i * deviation_rate E eqs i)) by (apply det_mul; [apply det_mul; exact Hi|exact Hd]).
    rewrite (st_centred _ _ _ HS). ring.
  Qed.
  Lemma rate_det f : is_random f = false -> is_ext f = false -> (forall i a b, f <> FDif i a b /\ f <> FAsp i a b) -> det (R f).
  Proof.
    intros Hr He Hd. destruct f; try discriminate; cbn [rate]; try apply det_EE; try apply det_0; destruct (Hd i a b); congruence.
  Qed.
  Lemma rate_centred f : is_random f = true -> EE (R f) = 0.
  Proof. destruct f; try discriminate; intros _; cbn [rate]; [apply error_rate_centred|apply normalised_rate_centred]. Qed.

  (** *** dictionaries of time derivatives *)
  Lemma upds_value d J f : (forall g u, In (g, u) d -> pv E u = R g) -> In f (map fst d) -> upds E d J f = R f.
  Proof.
    induction d as [|[g u] d IH]; intros Hd Hf; [destruct Hf|]. cbn [upds fold_right fst snd]. unfold upd.
    destruct (fn_eq_dec f g) as [->|Hn]; [apply (Hd g u); left; reflexivity|]. destruct Hf as [Hf|Hf]; [cbn in Hf; congruence|].
    apply IH; [intros h w Hh; apply Hd; right; exact Hh|exact Hf].
  Qed.
  Lemma upds_other d J f : ~ In f (map fst d) -> upds E d J f = J f.
  Proof.
    induction d as [|[g u] d IH]; intros Hf; [reflexivity|]. cbn [upds fold_right fst snd]. unfold upd.
    destruct (fn_eq_dec f g) as [->|Hn]; [destruct Hf; left; reflexivity|]. apply IH. intros K. apply Hf. right. exact K.
  Qed.
  Record trends (fs : list fn) (d : list (fn * poly)) : Prop := {
    tr_keys : forall f, In f (map fst (enumF d)) <-> In f fs;
    tr_rate : forall f u, In (f, u) (enumF d) -> pv E u = R f;
    tr_ok : forall f u, In (f, u) (enumF d) -> is_ext f = false /\ T0 u /\ (is_random f = false -> det (pv E u)) /\ (is_random f = true -> EE (pv E u) = 0) }.
  Lemma trends_of s fs d : map fst s = map time_derivative fs -> (forall q, In q s -> T0 (snd q)) ->
    (forall f, In f fs -> is_ext f = false /\ forall i a b, f <> FDif i a b /\ f <> FAsp i a b) ->
    instantaneous E coords eqs s -> trend_dict s = Ok d -> trends fs d.
  Proof.
    intros H1 H2 H3 H4 Hd. rewrite (trend_dict_ok s fs H1) in Hd. apply Ok_inj in Hd. subst d.
    assert (L : List.length fs = List.length s) by (apply (f_equal (@List.length _)) in H1; rewrite !map_length in H1; symmetry; exact H1).
    assert (Hk : map fst (combine fs (map snd s)) = fs).
    { clear - L. revert s L. induction fs as [|f fs IH]; intros [|q s] L; try discriminate; [reflexivity|]. cbn [map combine fst].
      rewrite IH by (injection L as L; exact L). reflexivity. }
    assert (Hr : forall f u, In (f, u) (combine fs (map snd s)) -> In f fs /\ T0 u /\ pv E u = R f).
    { intros f u Hin. split; [exact (in_combine_l _ _ _ _ Hin)|].
      assert (Hq : In (time_derivative f, u) s).
      { clear - H1 Hin. revert s H1 Hin. induction fs as [|g fs IH]; intros [|[l r] s] H1 Hin; try destruct Hin.
        - cbn [map combine fst snd] in *. injection H as -> ->. injection H1 as -> _. left. reflexivity.
        - right. apply IH; [injection H1 as _ H1; exact H1|exact H]. }
      split; [exact (H2 _ Hq)|]. destruct (H4 _ _ Hq) as (g & Hg & ->). injection Hg as <-. reflexivity. }
    split.
    - intros f. split; intros Hf.
      + apply (Permutation_in _ (Permutation_map fst (HenumF _))) in Hf. rewrite Hk in Hf. exact Hf.
      + apply (Permutation_in _ (Permutation_map fst (Permutation_sym (HenumF _)))). rewrite Hk. exact Hf.
    - intros f u Hin. apply (Permutation_in _ (HenumF _)) in Hin. exact (proj2 (proj2 (Hr f u Hin))).
    - intros f u Hin. apply (Permutation_in _ (HenumF _)) in Hin. destruct (Hr f u Hin) as (G1 & G2 & G3).
      destruct (H3 f G1) as [K1 K2]. split; [exact K1|]. split; [exact G2|]. rewrite G3. split; intros; [apply rate_det; assumption|apply rate_centred; assumption].
  Qed.
  (** the value after replacing the time derivatives *)
  Lemma trends_value fs d K p : trends fs d -> pall (timed coords K) p -> (forall f, K f -> In f fs) ->
    exists J, admissible J /\ (forall f, In f fs -> J f = R f) /\ pv E (sub_trends (enumF d) p) = vp (va E J) p.
  Proof.
    intros HT Hp HK. exists (upds E (enumF d) J0). split; [|split].
    - apply upds_admissible; [exact J0_admissible|]. intros f u Hin. destruct (tr_ok _ _ HT f u Hin) as (_ & _ & H). exact H.
    - intros f Hf. apply upds_value; [apply (tr_rate _ _ HT)|apply (tr_keys _ _ HT), Hf].
    - rewrite <- (vp_T0 E J0 coords Ht).
      + apply (vp_sub_trends E HE HA coords Ht _ J0 K p J0_admissible); [apply (tr_ok _ _ HT)|exact Hp].
      + apply (sub_trends_T0 coords Ht K); [|intros f Hf; apply (tr_keys _ _ HT), HK, Hf|exact Hp].
        intros f u Hin. destruct (tr_ok _ _ HT f u Hin) as (H1 & H2 & _). auto.
  Qed.

  Lemma vj_t J f w : ~ In "t" w -> is_ext f = false -> vj E J f (winsert "t" w) = dds w (J f).
  Proof. intros Hw Hf. unfold vj. rewrite Hf, wremove_winsert by exact Hw. reflexivity. Qed.
  Lemma pair_value J f g w w' : is_random f = true -> is_random g = true -> ~ In "t" w -> ~ In "t" w' -> admissible J ->
    vp (va E J) (expect (pderiv "t" (pmul (pjet f w) (pjet g w'))))
    = EE (dds w (J f) * dds w' (e_fn E g) + dds w (e_fn E f) * dds w' (J g)).
  Proof.
    intros Hf Hg Hw Hw' HJ. rewrite (vp_expect E HE HA) by exact HJ. f_equal.
    rewrite (pjet_random f w Hf), (pjet_random g w' Hg), (vp_trend_pair E HE) by reflexivity. cbn [datom va].
    rewrite !(vj_pjet E HE), !vj_t by (assumption || (apply random_not_ext; assumption)).
    unfold vj. rewrite !wremove_none, !random_not_ext by assumption. reflexivity.
  Qed.

  (** *** the systems *)
  Lemma error_rates s : error_system enum enumC enumF coords eqs = Ok s -> instantaneous E coords eqs s.
  Proof.
    intros Hs l r Hin. destruct (error_ok enum enumC enumF no_tensor coords eqs) as (s' & Hs' & Hl & _); auto.
    rewrite Hs' in Hs. apply Ok_inj in Hs. subst s'. apply In_nth_error in Hin. destruct Hin as (i & Hi).
    destruct (error_values E enum enumC enumF coords eqs HenumC HenumF HU HS s i l r Hs' Hi) as (Hl' & _ & H). exists (FErr i). split; [|exact H].
    assert (N : nth_error (map fst s) i = Some l) by (rewrite nth_error_map, Hi; reflexivity). rewrite Hl, map_map in N.
    exact (proj2 (nth_map_fields eqs (fun x => time_derivative (FErr x)) i l N)).
  Qed.
  Lemma error_trends es d : error_system enum enumC enumF coords eqs = Ok es -> trend_dict es = Ok d -> trends (map FErr (fields eqs)) d.
  Proof.
    intros Hes Hd. destruct (error_ok enum enumC enumF no_tensor coords eqs) as (s' & Hs' & Hl & _); auto.
    rewrite Hs' in Hes. apply Ok_inj in Hes. subst s'. apply (trends_of es); auto.
    - eapply error_T0; try exact Hs'; auto.
    - intros f Hf. apply in_map_iff in Hf. destruct Hf as (i & <- & _). split; [reflexivity|split; discriminate].
    - apply error_rates, Hs'.
  Qed.
  Lemma error_pair_value es d i j : error_system enum enumC enumF coords eqs = Ok es -> trend_dict es = Ok d -> (i < n)%nat -> (j < n)%nat ->
    pv E (sub_trends (enumF d) (expect (pderiv "t" (pmul (pfn (FErr i)) (pfn (FErr j)))))) = covariance_rate E eqs i j.
  Proof.
    intros Hes Hd Hi Hj.
    destruct (trends_value (map FErr (fields eqs)) d (fun f => f = FErr i \/ f = FErr j) (expect (pderiv "t" (pmul (pfn (FErr i)) (pfn (FErr j))))))
      as (J & HJ & HR & ->).
    - exact (error_trends es d Hes Hd).
    - apply (pair_timed coords); auto; apply spatial_nil.
    - intros f [->| ->]; apply in_map, fields_in; assumption.
    - unfold pfn. rewrite pair_value by (auto; exact HJ). cbn [dds]. rewrite !HR by (apply in_map, fields_in; assumption). reflexivity.
  Qed.
  Lemma variance_rates s : variance_system enum enumD enumC enumF enumU coords eqs = Ok s -> instantaneous E coords eqs s.
  Proof.
    unfold variance_system. intros H. ok H es Hes. ok H tr Htr. intros l r Hin.
    destruct (mapM_in _ _ _ _ H Hin) as (i & Hi & Hq). apply fields_in in Hi. unfold variance_equation in Hq. ok Hq rhs Hrhs.
    apply Ok_inj, pair_inj in Hq. destruct Hq as [<- <-]. exists (FVar i). split; [reflexivity|].
    rewrite (apply_internal_sound E enum enumD enumC enumU coords eqs Henum HenumD HenumC Hcoords Hne HS _ _ Hrhs).
    rewrite (subs_error_sound E enumF coords eqs HenumF HS). exact (error_pair_value es tr i i Hes Htr Hi Hi).
  Qed.
  Lemma variance_trends vs d : variance_system enum enumD enumC enumF enumU coords eqs = Ok vs -> trend_dict vs = Ok d ->
    trends (map FVar (fields eqs)) d.
  Proof.
    intros Hvs Hd. destruct (variance_ok enum enumD enumC enumF enumU no_tensor coords eqs) as (s' & Hs' & Hl & _); auto.
    rewrite Hs' in Hvs. apply Ok_inj in Hvs. subst s'. apply (trends_of vs); auto.
    - eapply variance_T0; try exact Hs'; auto.
    - intros f Hf. apply in_map_iff in Hf. destruct Hf as (i & <- & _). split; [reflexivity|split; discriminate].
    - apply variance_rates, Hs'.
  Qed.
  Lemma covariance_rates s : cross_covariance_system enum enumD enumC enumF enumU coords eqs = Ok s -> instantaneous E coords eqs (optional s).
  Proof.
    intros Hs. destruct (covariance_ok enum enumD enumC enumF enumU no_tensor coords eqs) as (s' & Hs' & (Hl & _) & _); auto.
    rewrite Hs' in Hs. apply Ok_inj in Hs. subst s'. revert Hs'.
    unfold cross_covariance_system. destruct (Nat.eqb (nfields eqs) 1); [intros H; apply Ok_inj in H; subst; intros l r []|].
    intros H. ok H es Hes. ok H tr Htr. ok H ll Hll. apply Ok_inj in H. subst s. cbn [optional] in *. intros l r Hin.
    apply In_nth_error in Hin. destruct Hin as (k & Hk). destruct (mapM_nth _ _ _ _ _ Hll Hk) as ([i j] & Hij & Hq).
    assert (N : nth_error (map fst ll) k = Some l) by (rewrite nth_error_map, Hk; reflexivity).
    rewrite Hl, map_map, nth_error_map, Hij in N. cbn [option_map fst snd] in N. injection N as <-.
    apply nth_error_In, couples_in in Hij.
    exists (FCov i j). split; [reflexivity|]. unfold covariance_equation in Hq. ok Hq cl Hcl. ok Hq V12 HV. ok Hq rhs Hrhs.
    apply Ok_inj, pair_inj in Hq. destruct Hq as [_ <-].
    rewrite (apply_internal_sound E enum enumD enumC enumU coords eqs Henum HenumD HenumC Hcoords Hne HS _ _ Hrhs).
    rewrite (subs_error_sound E enumF coords eqs HenumF HS). apply (error_pair_value es tr i j Hes Htr); lia.
  Qed.
  Lemma epsilon_rates s : epsilon_system enum enumD enumC enumF enumU coords eqs = Ok s -> instantaneous E coords eqs s.
  Proof.
    unfold epsilon_system. intros H. ok H es Hes. ok H et Het. ok H vs Hvs. ok H vt Hvt. apply Ok_inj in H. subst s.
    intros l r Hin. apply in_map_iff in Hin. destruct Hin as (i & Hq & Hi). apply fields_in in Hi. unfold epsilon_equation in Hq.
    apply pair_inj in Hq. destruct Hq as [<- <-]. exists (FEps i). split; [reflexivity|]. cbn [rate].
    rewrite (subs_error_sound E enumF coords eqs HenumF HS).
    pose proof (error_trends es et Hes Het) as HT1. pose proof (variance_trends vs vt Hvs Hvt) as HT2.
    set (p := pderiv "t" (pmulm 1 [AIsig i] (pfn (FErr i)))).
    set (K := fun f => f = FErr i \/ f = FVar i).
    assert (Hp : pall (timed coords K) p).
    { apply timed_trend. apply pmulm_all; [intros a [<-|[]]; right; reflexivity|]. apply pall_atom. split; [apply spatial_nil|left; reflexivity]. }
    set (K1 := fun f => K f /\ ~ In f (map fst (enumF et))).
    destruct (trends_value _ vt K1 (sub_trends (enumF et) p) HT2) as (J & HJ & HR & ->).
    { apply (sub_trends_timed coords Ht K); [|exact Hp]. intros f u Hin. destruct (tr_ok _ _ HT1 f u Hin) as (G1 & G2 & _). auto. }
    { intros f [[->| ->] Hn]; [destruct Hn; apply (tr_keys _ _ HT1), in_map, fields_in, Hi|apply in_map, fields_in, Hi]. }
    rewrite (vp_sub_trends E HE HA coords Ht _ J K p HJ (tr_ok _ _ HT1) Hp).
    assert (JE : upds E (enumF et) J (FErr i) = T i).
    { rewrite upds_value; [reflexivity|apply (tr_rate _ _ HT1)|apply (tr_keys _ _ HT1), in_map, fields_in, Hi]. }
    assert (JV : upds E (enumF et) J (FVar i) = covariance_rate E eqs i i).
    { rewrite upds_other; [apply (HR (FVar i)), in_map, fields_in, Hi|]. rewrite (tr_keys _ _ HT1), in_map_iff. intros (k & Hk & _). discriminate. }
    set (J' := upds E (enumF et) J) in *. clearbody J'. unfold p.
    change (pmulm 1 [AIsig i] (pfn (FErr i))) with (pmul [(1%Q, [AJet (FErr i) []])] [(1%Q, [AIsig i])]).
    rewrite (vp_trend_pair E HE) by reflexivity. cbn [datom winsert].
    rewrite (vp_pmulm _ (va_inv E HE J')), !(vj_pjet E HE). cbn [va vj is_ext wremove].
    destruct (string_dec "t" "t") as [_|]; [|congruence]. cbn [dds]. rewrite JE, JV. rewrite !vm_cons, vm_nil. cbn [va].
    unfold normalised_rate, deviation_rate. change (-1 # 2)%Q with (- (1 # 2))%Q. rewrite qq_opp. ring.
  Qed.
  Lemma metric_rates s : metric_system enum enumD enumC enumF enumU coords eqs = Ok s -> instantaneous E coords eqs s.
  Proof.
    unfold metric_system. intros H. ok H es Hes. ok H tr Htr. intros l r Hin.
    destruct (mapM_in _ _ _ _ H Hin) as ([i [a b]] & Hi & Hq). apply indices_in in Hi. unfold metric_equation in Hq. ok Hq rhs Hrhs.
    apply Ok_inj, pair_inj in Hq. destruct Hq as [<- <-]. exists (FMet i a b). split.
    { unfold metric. destruct (Nat.ltb_spec b a); [lia|reflexivity]. }
    rewrite (apply_internal_sound E enum enumD enumC enumU coords eqs Henum HenumD HenumC Hcoords Hne HS _ _ Hrhs).
    destruct (epsilon_ok enum enumD enumC enumF enumU no_tensor coords eqs) as (s' & Hs' & Hl & _); auto.
    rewrite Hs' in Hes. apply Ok_inj in Hes. subst s'.
    assert (HT : trends (map FEps (fields eqs)) tr).
    { apply (trends_of es); auto.
      - eapply epsilon_T0; try exact Hs'; auto.
      - intros f Hf. apply in_map_iff in Hf. destruct Hf as (k & <- & _). split; [reflexivity|split; discriminate].
      - apply epsilon_rates, Hs'. }
    assert (Ga : spatial coords [coord coords a]) by (apply coord_good; lia).
    assert (Gb : spatial coords [coord coords b]) by (apply coord_good; lia).
    destruct (trends_value _ tr (fun f => f = FEps i) (expect (pderiv "t" (pmul (pjet (FEps i) [coord coords a]) (pjet (FEps i) [coord coords b])))) HT)
      as (J & HJ & HR & ->).
    - apply (pair_timed coords); auto.
    - intros f ->. apply in_map, fields_in, Hi.
    - rewrite pair_value by (auto; try exact HJ; apply (good_t coords Ht); assumption). cbn [dds].
      rewrite (HR (FEps i)) by (apply in_map, fields_in, Hi). reflexivity.
  Qed.
  Lemma expectation_rates s : expectation_system enum enumC enumF coords eqs = Ok s -> instantaneous E coords eqs s.
  Proof.
    intros Hs l r Hin. destruct (expectation_ok enum enumC enumF no_tensor coords eqs) as (s' & Hs' & Hl & _); auto.
    rewrite Hs' in Hs. apply Ok_inj in Hs. subst s'. apply In_nth_error in Hin. destruct Hin as (i & Hi).
    destruct (expectation_values E enum enumC enumF coords eqs HenumC HenumF HU HS s i l r Hs' Hi) as (Hl' & _ & H). exists (FMean i). split; [|exact H].
    assert (N : nth_error (map fst s) i = Some l) by (rewrite nth_error_map, Hi; reflexivity). rewrite Hl, map_map in N.
    exact (proj2 (nth_map_fields eqs (fun x => time_derivative (FMean x)) i l N)).
  Qed.
End Rates.
