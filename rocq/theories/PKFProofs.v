(** The equations of the parametric dynamics hold for the statistics of every error that evolves
    by the tangent-linear dynamics. *)
From Coq Require Import List Arith Ring ZArith QArith Qcanon Bool String Permutation Lia.
From Verif Require Import PyBase PyBaseFacts PartialOrderModel TreeModel Reynolds PKFModel PKFSpec PKFAlg PKFAtoms PKFTaylor PKFClosure.
Import ListNotations.
Close Scope Q_scope.
Close Scope Qc_scope.
Close Scope Z_scope.
Open Scope nat_scope.
Open Scope string_scope.
Open Scope list_scope.

Lemma mapM_nth {X Y} (f : X -> res Y) l ys i y : mapM f l = Ok ys -> nth_error ys i = Some y ->
  exists x, nth_error l i = Some x /\ f x = Ok y.
Proof.
  intros H. apply mapM_Ok_Forall2 in H. revert i. induction H as [|x y' xs ys' Hxy Hr IH]; intros i Hi; [destruct i; discriminate|].
  destruct i; [injection Hi as ->; exists x; split; [reflexivity|exact Hxy]|apply IH, Hi].
Qed.
Lemma mapM_in {X Y} (f : X -> res Y) l ys y : mapM f l = Ok ys -> In y ys -> exists x, In x l /\ f x = Ok y.
Proof.
  intros H Hy. apply In_nth_error in Hy. destruct Hy as (i & Hi). destruct (mapM_nth _ _ _ _ _ H Hi) as (x & Hx & Hf).
  exists x. split; [exact (nth_error_In _ _ Hx)|exact Hf].
Qed.
Lemma bind_Ok {X Y} (m : res X) (f : X -> res Y) y : bind m f = Ok y -> exists x, m = Ok x /\ f x = Ok y.
Proof. destruct m; [intros H; exists a; auto|discriminate]. Qed.
Ltac ok H x Hx := apply bind_Ok in H; destruct H as (x & Hx & H).

(** the left-hand sides of the Reynolds system *)
Lemma sub_fns_perm_one i l :
  In i l -> sub_fns (map (fun i => (FField i, reynolds_value i)) l) (pjet (FField i) ["t"])
  = [(1%Q, [ASmall; AJet (FErr i) ["t"]]); (1%Q, [AJet (FMean i) ["t"]])].
Proof.
  set (Q2 := [(1%Q, [ASmall; AJet (FErr i) ["t"]]); (1%Q, [AJet (FMean i) ["t"]])]).
  assert (Hfix : forall l, sub_fns (map (fun i => (FField i, reynolds_value i)) l) Q2 = Q2).
  { intros l0. induction l0 as [|j l0 IH]; [reflexivity|]. exact IH. }
  induction l as [|j l IH]; intros Hin; [destruct Hin|].
  unfold sub_fns. cbn [map fold_left fst snd].
  destruct (Nat.eq_dec j i) as [->|Hne].
  - transitivity (sub_fns (map (fun i => (FField i, reynolds_value i)) l) Q2); [|apply Hfix].
    unfold sub_fns. f_equal. unfold sub_fn, psubst. cbn [pjet map fst snd asubst].
    destruct (fn_eq_dec (FField i) (FField i)) as [_|]; [reflexivity|congruence].
  - destruct Hin as [->|Hin]; [congruence|]. rewrite <- (IH Hin). unfold sub_fns. f_equal.
    unfold sub_fn, psubst. cbn [pjet map fst snd asubst].
    destruct (fn_eq_dec (FField i) (FField j)) as [He|_]; [congruence|reflexivity].
Qed.
Lemma fields_perm enumF eqs : (forall l : list (fn * poly), Permutation (enumF l) l) ->
  exists l, enumF (map (fun i => (FField i, reynolds_value i)) (fields eqs)) = map (fun i => (FField i, reynolds_value i)) l
            /\ Permutation l (fields eqs).
Proof.
  intros HF. pose proof (HF (map (fun i => (FField i, reynolds_value i)) (fields eqs))) as HP.
  destruct (Permutation_map_inv _ _ HP) as (l & He & HPl). exists l. split; [exact He|symmetry; exact HPl].
Qed.
Lemma fields_in eqs i : In i (fields eqs) <-> i < List.length eqs.
Proof. unfold fields, nfields. rewrite in_seq. lia. Qed.
Lemma reynolds_lhs enumF eqs i : (forall l : list (fn * poly), Permutation (enumF l) l) -> i < List.length eqs ->
  subs_reynolds enumF eqs (pjet (FField i) ["t"])
  = [(1%Q, [ASmall; AJet (FErr i) ["t"]]); (1%Q, [AJet (FMean i) ["t"]])].
Proof.
  intros HF Hi. change (subs_reynolds enumF eqs (pjet (FField i) ["t"])) with
    (sub_fns (enumF (map (fun i => (FField i, reynolds_value i)) (fields eqs))) (pjet (FField i) ["t"])).
  destruct (fields_perm enumF eqs HF) as (l & -> & HP). apply sub_fns_perm_one.
  apply (Permutation_in _ (Permutation_sym HP)), fields_in, Hi.
Qed.

Section Systems.
  Context {A : RAlg} (E : env A).
  Add Ring A_ring6 : (c_th A).
  Open Scope ra_scope.
  Variables (enum : list mi -> list mi) (enumD : tdict -> tdict) (enumC : edict -> edict)
    (enumF : list (fn * poly) -> list (fn * poly)) (enumU : list fn -> list fn).
  Variables (coords : list string) (eqs : list poly).
  Hypothesis Henum : forall l, Permutation (enum l) l.
  Hypothesis HenumD : forall l, Permutation (enumD l) l.
  Hypothesis HenumC : forall l, Permutation (enumC l) l.
  Hypothesis HenumF : forall l, Permutation (enumF l) l.
  Hypothesis Hcoords : NoDup coords.
  Hypothesis Hne : coords <> [].
  Hypothesis HU : user_system eqs.
  Hypothesis HS : statistics coords (List.length eqs) E.

  Let HE : algebraic E := st_algebraic E coords _ HS.
  Let HA : averaged E := st_averaged E coords _ HS.
  Notation err i := (e_fn E (FErr i)).
  Notation eps i := (e_fn E (FEps i)).
  Notation mean i := (e_fn E (FField i)).
  Notation var i := (e_fn E (FVar i)).

  (** *** Reynolds system *)
  Lemma user_nth i : (i < List.length eqs)%nat ->
    forall c m a, In (c, m) (nth i eqs []) -> In a m -> user_atom (List.length eqs) a.
  Proof. intros Hi c m a H1 H2. exact (HU _ c m a (nth_In eqs [] Hi) H1 H2). Qed.
  Lemma expansion_value i : (i < List.length eqs)%nat ->
    pv (E3 A E) (subs_reynolds enumF eqs (nth i eqs [])) = expansion E (nth i eqs []).
  Proof.
    intros Hi. apply (subs_reynolds_value E HE (st_mean _ _ _ HS) (List.length eqs) enumF eqs _ HenumF eq_refl).
    exact (user_nth i Hi).
  Qed.
  Lemma second_rhs i : (i < List.length eqs)%nat ->
    pv E (small_one (taylor2 (subs_reynolds enumF eqs (nth i eqs []))))
    = taylor0 E (nth i eqs []) + taylor1 E (nth i eqs []) + taylor2_coef E (nth i eqs []).
  Proof.
    intros Hi. rewrite (small_one_value A E (st_small _ _ _ HS)), (taylor2_value A E (st_small _ _ _ HS)), expansion_value by exact Hi. reflexivity.
  Qed.
  Lemma first_rhs i : (i < List.length eqs)%nat ->
    pv E (small_one (square_zero (taylor2 (subs_reynolds enumF eqs (nth i eqs [])))))
    = taylor0 E (nth i eqs []) + taylor1 E (nth i eqs []).
  Proof.
    intros Hi. rewrite (small_one_value A E (st_small _ _ _ HS)), (square_zero_value A E (st_small _ _ _ HS)), expansion_value by exact Hi. reflexivity.
  Qed.
  Lemma lhs_value i : (i < List.length eqs)%nat ->
    pv E (small_one (subs_reynolds enumF eqs (pjet (FField i) ["t"]))) = dd "t" (mean i) + dd "t" (err i)
    /\ pv E (small_one (square_zero (subs_reynolds enumF eqs (pjet (FField i) ["t"])))) = dd "t" (mean i) + dd "t" (err i).
  Proof.
    intros Hi. rewrite reynolds_lhs by assumption.
    change (square_zero [(1%Q, [ASmall; AJet (FErr i) ["t"]]); (1%Q, [AJet (FMean i) ["t"]])])
      with [(1%Q, [ASmall; AJet (FErr i) ["t"]]); (1%Q, [AJet (FMean i) ["t"]])].
    assert (G : pv E (small_one [(1%Q, [ASmall; AJet (FErr i) ["t"]]); (1%Q, [AJet (FMean i) ["t"]])]) = dd "t" (mean i) + dd "t" (err i)).
    { rewrite (small_one_value A E (st_small _ _ _ HS)), !pv_cons, pv_nil. cbn [fst snd]. rewrite !mv_cons, mv_nil, qq_1. cbn [av dds].
      rewrite (st_small _ _ _ HS), (st_mean _ _ _ HS). ring. }
    split; exact G.
  Qed.

  (** *** orders 0 and 1 of the expansion *)
  Lemma expansion_det p : det (taylor0 E p) /\ EE (taylor1 E p) = 0.
  Proof.
    unfold taylor0, taylor1, expansion, t_poly.
    induction p as [|t p IH]; cbn [fold_right].
    - cbn. split; [apply det_0|apply EE_0].
    - destruct (fold_right _ _ p) as [[s0 s1] s2]. destruct IH as [IH0 IH1]. cbn [fst snd] in IH0, IH1.
      assert (M : forall m, det (fst (fst (t_mono (fun i => mean i) (fun i => err i) (fun k d => e_fn E (FExt k d)) (e_cst E) m)))
                    /\ EE (snd (fst (t_mono (fun i => mean i) (fun i => err i) (fun k d => e_fn E (FExt k d)) (e_cst E) m))) = 0).
      { induction m as [|a m IHm]; [cbn; split; [apply det_1|apply EE_0]|].
        unfold t_mono in *. cbn [fold_right]. destruct (fold_right _ _ m) as [[m0 m1] m2]. destruct IHm as [M0 M1]. cbn [fst snd] in M0, M1.
        assert (Ha : forall a0 a1 a2, t_atom (fun i => mean i) (fun i => err i) (fun k d => e_fn E (FExt k d)) (e_cst E) a = (a0, a1, a2) ->
                     det a0 /\ EE a1 = 0).
        { intros a0 a1 a2 Ha. destruct a; cbn [t_atom] in Ha; unfold t_const in Ha;
            try (injection Ha as <- <- <-; split; [apply det_0 || apply (st_cst _ _ _ HS)|apply EE_0]).
          destruct f; unfold t_const in Ha; injection Ha as <- <- <-;
            try (split; [apply det_0|apply EE_0]).
          - split; [apply det_dds, (st_det _ _ _ HS); reflexivity|]. rewrite EE_dds, (st_centred _ _ _ HS). apply dds_0.
          - split; [apply det_dds, (st_det _ _ _ HS); reflexivity|apply EE_0]. }
        destruct (t_atom _ _ _ _ a) as [[a0 a1] a2]. destruct (Ha a0 a1 a2 eq_refl) as [A0 A1].
        cbn [t_mul fst snd]. split; [apply det_mul; assumption|].
        rewrite EE_add, (EE_det_l a0) by exact A0. replace (a1 * m0) with (m0 * a1) by ring.
        rewrite (EE_det_l m0) by exact M0. rewrite M1, A1. ring. }
      destruct (M (snd t)) as [M0 M1]. destruct (t_mono _ _ _ _ (snd t)) as [[m0 m1] m2]. cbn [fst snd] in M0, M1.
      unfold t_const. cbn [t_mul t_add fst snd]. split.
      + apply det_add; [apply det_mul; [apply det_cq|exact M0]|exact IH0].
      + rewrite !EE_add, (EE_det_l (cq _)) by apply det_cq. rewrite M1, IH1.
        replace (0 * m0) with (0 : A) by ring. rewrite EE_0. ring.
  Qed.

  (** *** closures keep values *)
  Lemma internal_sound cl p : internal_closure enum coords eqs = Ok cl -> pv E (sub_exps (enumC cl) p) = pv E p.
  Proof.
    intros H. apply (sub_exps_sound E HE). apply (closure_enum E enumC HenumC).
    exact (internal_closure_holds E coords _ HS enum eqs cl eq_refl H).
  Qed.
  Lemma apply_internal_sound p q : apply_internal_closure enum enumD enumC enumU coords eqs p = Ok q -> pv E q = pv E p.
  Proof.
    unfold apply_internal_closure. intros H. ok H cl Hcl.
    destruct (existsb _ _); [discriminate|]. ok H p' Hp'. apply Ok_inj in H. rewrite <- H.
    rewrite (internal_sound cl) by exact Hcl. clear H q.
    revert Hp'. generalize (check_univariate p) as u. intros u. revert p p'.
    induction (enumU (dkeys u)) as [|f fs IH]; intros p p' Hp'; cbn [foldM] in Hp'; [congruence|].
    ok Hp' p1 Hp1. rewrite (IH _ _ Hp'). destruct (field_of eqs f) as [i|]; [|discriminate].
    ok Hp1 ns Hns. ok Hp1 t Ht. apply Ok_inj in Hp1. rewrite <- Hp1.
    apply (sub_exps_sound E HE). apply (closure_enum E enumC HenumC).
    eapply (closed_tree_holds E coords _ HS enum enumD enumC Henum HenumD HenumC Hcoords Hne); [|exact Ht].
    exact (internal_closure_holds E coords _ HS enum eqs cl eq_refl Hcl).
  Qed.
  Lemma subs_error_sound p : pv E (sub_fns (enumF (subs_error eqs)) p) = pv E p.
  Proof.
    apply (sub_fns_sound E HE HA). intros f v H. apply (Permutation_in _ (HenumF _)) in H.
    unfold subs_error in H. apply in_map_iff in H. destruct H as (i & H & _). apply pair_inj in H. destruct H as [<- <-].
    rewrite pmulm_sound, pfn_sound, mv_cons, mv_nil, qq_1 by exact HE. cbn [av]. rewrite (error_is E coords _ HS). ring.
  Qed.

  (** *** expectation_system and tl_expectation_system *)
  Lemma nth_map_fields {Y} (f : nat -> Y) i y : nth_error (map f (fields eqs)) i = Some y ->
    (i < List.length eqs)%nat /\ y = f i.
  Proof.
    intros H. rewrite nth_error_map in H. destruct (nth_error (fields eqs) i) as [j|] eqn:Hj; [|discriminate].
    injection H as <-. unfold fields, nfields in Hj.
    assert (Hi : (i < List.length eqs)%nat).
    { rewrite <- (seq_length (List.length eqs) 0). apply nth_error_Some. rewrite Hj. discriminate. }
    split; [exact Hi|]. f_equal. apply (nth_error_nth _ _ O) in Hj. rewrite seq_nth in Hj by exact Hi. lia.
  Qed.

  Lemma expectation_values sys i lhs rhs : expectation_system enum enumC enumF coords eqs = Ok sys ->
    nth_error sys i = Some (lhs, rhs) ->
    (i < List.length eqs)%nat /\ pv E lhs = dd "t" (mean i)
    /\ pv E rhs = EE (taylor0 E (nth i eqs []) + taylor1 E (nth i eqs []) + taylor2_coef E (nth i eqs [])).
  Proof.
    unfold expectation_system. intros H Hn. ok H cl Hcl. apply Ok_inj in H. rewrite <- H in Hn. clear H sys.
    unfold second_order_reynolds in Hn. rewrite map_map in Hn. apply nth_map_fields in Hn. destruct Hn as [Hi Hq].
    apply pair_inj in Hq. destruct Hq as [-> ->]. cbn [reynolds fst snd on_eq].
    rewrite !(internal_sound cl) by exact Hcl. rewrite !subs_error_sound, !(expect_sound E HE HA).
    split; [exact Hi|]. split.
    - rewrite (proj1 (lhs_value i Hi)), EE_add, !EE_dd, (st_centred _ _ _ HS), dd_0.
      rewrite (st_det _ _ _ HS (FField i) eq_refl). ring.
    - rewrite second_rhs by exact Hi. reflexivity.
  Qed.

  Lemma tl_expectation_values sys i lhs rhs : tl_expectation_system enum enumC enumF coords eqs = Ok sys ->
    nth_error sys i = Some (lhs, rhs) ->
    (i < List.length eqs)%nat /\ pv E lhs = dd "t" (mean i) /\ pv E rhs = taylor0 E (nth i eqs []).
  Proof.
    unfold tl_expectation_system. intros H Hn. ok H cl Hcl. apply Ok_inj in H. rewrite <- H in Hn. clear H sys.
    unfold first_order_reynolds in Hn. rewrite map_map in Hn. apply nth_map_fields in Hn. destruct Hn as [Hi Hq].
    apply pair_inj in Hq. destruct Hq as [-> ->]. cbn [reynolds fst snd on_eq].
    rewrite !(internal_sound cl) by exact Hcl. rewrite !(expect_sound E HE HA).
    split; [exact Hi|]. split.
    - rewrite (proj2 (lhs_value i Hi)), EE_add, !EE_dd, (st_centred _ _ _ HS), dd_0.
      rewrite (st_det _ _ _ HS (FField i) eq_refl). ring.
    - rewrite first_rhs, EE_add by exact Hi. destruct (expansion_det (nth i eqs [])) as [H0 H1].
      rewrite H0, H1. ring.
  Qed.

  (** *** error_system *)
  Lemma error_values sys i lhs rhs : error_system enum enumC enumF coords eqs = Ok sys ->
    nth_error sys i = Some (lhs, rhs) ->
    (i < List.length eqs)%nat /\ pv E lhs = dd "t" (err i) /\ pv E rhs = taylor1 E (nth i eqs []).
  Proof.
    unfold error_system. intros H Hn. ok H tls Htl. apply Ok_inj in H. rewrite <- H in Hn. clear H sys.
    rewrite nth_error_map in Hn. destruct (nth_error (combine _ _) i) as [[q r]|] eqn:Hqr; [|discriminate].
    injection Hn as <- <-. cbn [fst snd].
    assert (nth_error (first_order_reynolds enumF eqs) i = Some q /\ nth_error tls i = Some r) as [Hq Hr].
    { clear - Hqr. revert tls i Hqr. induction (first_order_reynolds enumF eqs) as [|a l IH]; intros tls i H; [destruct i; discriminate|].
      destruct tls as [|b tls]; [destruct i; discriminate|]. destruct i; [injection H as <- <-; auto|exact (IH tls i H)]. }
    unfold first_order_reynolds in Hq. apply nth_map_fields in Hq. destruct Hq as [Hi ->].
    destruct r as [rl rr]. destruct (tl_expectation_values tls i rl rr Htl Hr) as (_ & Hl & Hrr).
    split; [exact Hi|]. cbn [fst snd reynolds]. rewrite !psub_sound. rewrite (proj2 (lhs_value i Hi)), first_rhs by exact Hi.
    rewrite Hl, Hrr. split; ring.
  Qed.

  (** *** systems of exact equations *)
  Definition all_hold (s : list pequation) : Prop := forall q, In q s -> holds E q.

  Lemma trends_sound s d : all_hold s -> trend_dict s = Ok d ->
    forall f v, In (f, v) (enumF d) -> pv E v = dd "t" (e_fn E f).
  Proof.
    intros Hs Hd f v Hin. apply (Permutation_in _ (HenumF _)) in Hin. unfold trend_dict in Hd.
    destruct (mapM_in _ _ _ _ Hd Hin) as ([l r] & Hq & H). ok H g Hg. apply Ok_inj, pair_inj in H. destruct H as [<- <-].
    cbn [fst snd] in Hg |- *. rewrite <- (Hs (l, r) Hq). cbn [fst].
    unfold trend_key in Hg. destruct l as [|[c [|[h w| | | | |] [|]]] [|]]; try discriminate.
    destruct (list_eq_dec string_dec w ["t"]) as [->|]; [|discriminate].
    destruct (Qeq_bool c 1) eqn:Hc; [|discriminate]. apply Ok_inj in Hg. subst h.
    rewrite pterm_sound, mv_cons, mv_nil. rewrite (qq_eq _ _ (Qeq_bool_eq _ _ Hc)), qq_1. cbn [av dds]. ring.
  Qed.

  Hypothesis HD : error_dynamics eqs E.

  Lemma nth_error_nth_eqs i : (i < List.length eqs)%nat -> nth_error eqs i = Some (nth i eqs []).
  Proof.
    intros Hi. destruct (nth_error eqs i) as [p|] eqn:Hp; [rewrite (nth_error_nth _ _ _ Hp); reflexivity|].
    apply nth_error_None in Hp. lia.
  Qed.
  Lemma error_hold sys : error_system enum enumC enumF coords eqs = Ok sys -> all_hold sys.
  Proof.
    intros H [l r] Hin. apply In_nth_error in Hin. destruct Hin as (i & Hi).
    destruct (error_values sys i l r H Hi) as (Hl & H1 & H2). unfold holds. cbn [fst snd]. rewrite H1, H2.
    apply (HD i). apply nth_error_nth_eqs, Hl.
  Qed.

  Lemma variance_hold sys : variance_system enum enumD enumC enumF enumU coords eqs = Ok sys -> all_hold sys.
  Proof.
    unfold variance_system. intros H. ok H es Hes. ok H tr Htr. intros q Hin.
    destruct (mapM_in _ _ _ _ H Hin) as (i & Hi & Hq). unfold variance_equation in Hq. ok Hq rhs Hrhs.
    apply Ok_inj in Hq. subst q. unfold holds. cbn [fst snd]. rewrite (apply_internal_sound _ _ Hrhs), subs_error_sound.
    rewrite (sub_trends_sound E HE HA) by exact (trends_sound es tr (error_hold es Hes) Htr).
    rewrite (expect_sound E HE HA), pderiv_sound, pmul_sound, !pfn_sound, pjet_sound by exact HE. cbn [dds].
    rewrite EE_dd, (st_variance _ _ _ HS). reflexivity.
  Qed.

  Lemma epsilon_hold sys : epsilon_system enum enumD enumC enumF enumU coords eqs = Ok sys -> all_hold sys.
  Proof.
    unfold epsilon_system. intros H. ok H es Hes. ok H et Het. ok H vs Hvs. ok H vt Hvt. apply Ok_inj in H. subst sys.
    intros q Hin. apply in_map_iff in Hin. destruct Hin as (i & <- & Hi). unfold epsilon_equation, holds. cbn [fst snd].
    rewrite subs_error_sound.
    rewrite (sub_trends_sound E HE HA) by exact (trends_sound vs vt (variance_hold vs Hvs) Hvt).
    rewrite (sub_trends_sound E HE HA) by exact (trends_sound es et (error_hold es Hes) Het).
    rewrite pderiv_sound, pmulm_sound, pfn_sound, pjet_sound, mv_cons, mv_nil, qq_1 by exact HE. cbn [av dds].
    rewrite (st_eps _ _ _ HS). f_equal. ring.
  Qed.

  Lemma dgetE_in {K V} (eqd : forall a b : K, {a = b} + {a <> b}) k (d : dict K V) v : dgetE eqd k d = Ok v -> In (k, v) d.
  Proof. unfold dgetE. destruct (dget eqd k d) as [v'|] eqn:H; [|discriminate]. intros H'. apply Ok_inj in H'. subst. exact (dget_Some_In _ _ _ _ H). Qed.

  Lemma covariance_hold s : cross_covariance_system enum enumD enumC enumF enumU coords eqs = Ok s -> all_hold (optional s).
  Proof.
    unfold cross_covariance_system. destruct (Nat.eqb (nfields eqs) 1); [intros H; apply Ok_inj in H; subst; intros q []|].
    intros H. ok H es Hes. ok H tr Htr. ok H l Hl. apply Ok_inj in H. subst s. cbn [optional]. intros q Hin.
    destruct (mapM_in _ _ _ _ Hl Hin) as ([i j] & Hij & Hq). unfold covariance_equation in Hq.
    ok Hq cl Hcl. ok Hq V12 HV. ok Hq rhs Hrhs. apply Ok_inj in Hq. subst q. unfold holds. cbn [fst snd].
    rewrite (apply_internal_sound _ _ Hrhs), subs_error_sound.
    rewrite (sub_trends_sound E HE HA) by exact (trends_sound es tr (error_hold es Hes) Htr).
    rewrite (expect_sound E HE HA), !pderiv_sound, pmul_sound, !pfn_sound by exact HE.
    rewrite EE_dd. f_equal. apply dgetE_in in HV.
    rewrite <- (internal_closure_holds E coords _ HS enum eqs cl eq_refl Hcl _ _ HV).
    rewrite (jkey2 E) by reflexivity. reflexivity.
  Qed.

  Lemma metric_hold sys : metric_system enum enumD enumC enumF enumU coords eqs = Ok sys -> all_hold sys.
  Proof.
    unfold metric_system. intros H. ok H es Hes. ok H tr Htr. intros q Hin.
    destruct (mapM_in _ _ _ _ H Hin) as ([i [a b]] & Hi & Hq). unfold metric_equation in Hq. ok Hq rhs Hrhs.
    apply Ok_inj in Hq. subst q. unfold holds. cbn [fst snd]. rewrite (apply_internal_sound _ _ Hrhs).
    rewrite (sub_trends_sound E HE HA) by exact (trends_sound es tr (epsilon_hold es Hes) Htr).
    rewrite (expect_sound E HE HA), pderiv_sound, pmul_sound, !pjet_sound by exact HE. cbn [dds].
    unfold metric_indices in Hi. apply in_flat_map in Hi. destruct Hi as (i' & Hf & Hi). apply in_map_iff in Hi.
    destruct Hi as ([a' b'] & He & Hu). apply pair_inj in He. destruct He as [<- He]. apply pair_inj in He. destruct He as [<- <-].
    apply upper_in in Hu. unfold dim in Hu. apply fields_in in Hf.
    rewrite (metric_value E coords _ HS) by (lia || exact Hf). rewrite EE_dd. reflexivity.
  Qed.
End Systems.
