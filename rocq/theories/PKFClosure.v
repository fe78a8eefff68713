(** The rules of the internal closure and of the substitution tree hold for the statistics of
    every error. *)
From Coq Require Import List Arith Ring ZArith QArith Qcanon Bool String Permutation Lia.
From Verif Require Import PyBase PyBaseFacts PartialOrderModel PartialOrderSpec PartialOrderProofs TreeModel TreeSpec TreeProofs
  Reynolds PKFModel PKFSpec PKFAlg TreeMore TreeProps.
Import ListNotations.
Close Scope Q_scope.
Close Scope Qc_scope.
Close Scope Z_scope.
Open Scope nat_scope.
Open Scope string_scope.
Open Scope list_scope.

Lemma Ok_inj {X} (a b : X) : Ok a = Ok b -> a = b.
Proof. congruence. Qed.
Lemma pair_inj {X Y} (a c : X) (b d : Y) : (a, b) = (c, d) -> a = c /\ b = d.
Proof. intros H. split; congruence. Qed.

Lemma in_dset {K V} (eqd : forall a b : K, {a = b} + {a <> b}) k (v : V) d k' v' :
  In (k', v') (dset eqd k v d) -> (k' = k /\ v' = v) \/ In (k', v') d.
Proof.
  induction d as [|[k0 v0] d IH]; cbn [dset].
  - intros [H|[]]. injection H as <- <-. auto.
  - destruct (eqd k k0) as [->|].
    + intros [H|H]; [injection H as <- <-; auto|right; right; exact H].
    + intros [H|H]; [right; left; exact H|]. destruct (IH H); auto. right; right; assumption.
Qed.
Lemma in_dupdate e : forall (d : edict) kv, In kv (dupdate d e) -> In kv d \/ In kv e.
Proof.
  unfold dupdate. induction e as [|[k v] e IH]; intros d kv H; cbn [fold_left] in H; [auto|].
  destruct (IH _ _ H) as [H'|H']; [|right; right; exact H'].
  destruct kv as [k' v']. destruct (in_dset _ _ _ _ _ _ H') as [[-> ->]|H'']; [right; left; reflexivity|auto].
Qed.

Section Rules.
  Context {A : RAlg} (E : env A).
  Add Ring A_ring5 : (c_th A).
  Open Scope ra_scope.
  Variable coords : list string.
  Variable n : nat.
  Hypothesis HS : statistics coords n E.

  Lemma st_algebraic : algebraic E.
  Proof.
    constructor.
    - apply (st_isig _ _ _ HS).
    - intros i. symmetry. apply (st_sig _ _ _ HS).
    - apply (st_ext _ _ _ HS).
    - apply (st_cst_const _ _ _ HS).
    - intros c. rewrite (st_small _ _ _ HS). apply dd_1.
  Qed.
  Lemma isig_is_det i : det (e_isig E i).
  Proof.
    unfold det. transitivity (e_sig E i * e_isig E i * EE (e_isig E i)); [rewrite (st_isig _ _ _ HS); ring|].
    transitivity (e_isig E i * (e_sig E i * EE (e_isig E i))); [ring|].
    rewrite <- EE_det_l by apply (st_sig_det _ _ _ HS). rewrite (st_isig _ _ _ HS), EE_1. ring.
  Qed.
  Lemma eps_mean i : EE (e_fn E (FEps i)) = 0.
  Proof. rewrite (st_eps _ _ _ HS), EE_det_l by apply isig_is_det. rewrite (st_centred _ _ _ HS). ring. Qed.
  Lemma st_averaged : averaged E.
  Proof.
    constructor.
    - apply (st_det _ _ _ HS).
    - apply (st_cst _ _ _ HS).
    - rewrite (st_small _ _ _ HS). apply det_1.
    - apply (st_sig_det _ _ _ HS).
    - intros f Hf. destruct f; try discriminate; [apply (st_centred _ _ _ HS)|apply eps_mean].
  Qed.
  Lemma error_is i : e_fn E (FErr i) = e_sig E i * e_fn E (FEps i).
  Proof.
    rewrite (st_eps _ _ _ HS). transitivity (e_sig E i * e_isig E i * e_fn E (FErr i)); [rewrite (st_isig _ _ _ HS)|]; ring.
  Qed.
  Lemma eps_unit i : EE (e_fn E (FEps i) * e_fn E (FEps i)) = 1.
  Proof.
    rewrite !(st_eps _ _ _ HS).
    replace (e_isig E i * e_fn E (FErr i) * (e_isig E i * e_fn E (FErr i)))
      with (e_isig E i * e_isig E i * (e_fn E (FErr i) * e_fn E (FErr i))) by ring.
    rewrite EE_det_l by (apply det_mul; apply isig_is_det).
    rewrite <- (st_variance _ _ _ HS), <- (st_sig _ _ _ HS).
    transitivity ((e_sig E i * e_isig E i) * (e_sig E i * e_isig E i)); [ring|].
    rewrite (st_isig _ _ _ HS). ring.
  Qed.

  (** *** one normalised field *)
  Section One.
    Variable u : A.
    Hypothesis Hu : EE (u * u) = 1.
    Lemma flat c : EE (u * dd c u) = 0.
    Proof.
      assert (H : dd c (EE (u * u)) = 0) by (rewrite Hu; apply dd_1).
      rewrite <- EE_dd, dd_mul, EE_add in H.
      replace (dd c u * u) with (u * dd c u) in H by ring.
      transitivity ((cq (Q2Qc (1 # 2)) + cq (Q2Qc (1 # 2))) * EE (u * dd c u)); [rewrite qq_half2; ring|].
      transitivity (cq (Q2Qc (1 # 2)) * (EE (u * dd c u) + EE (u * dd c u))); [ring|]. rewrite H. ring.
    Qed.
    Lemma curvature a b : EE (u * dd a (dd b u)) = - EE (dd a u * dd b u).
    Proof.
      assert (H : dd a (EE (u * dd b u)) = 0) by (rewrite flat; apply dd_0).
      rewrite <- EE_dd, dd_mul, EE_add in H.
      transitivity (EE (dd a u * dd b u) + EE (u * dd a (dd b u)) - EE (dd a u * dd b u)); [ring|]. rewrite H. ring.
    Qed.
    Lemma skewness k i j :
      EE (u * dd k (dd i (dd j u)))
      = cq (Q2Qc (-1 # 2)) * (dd i (EE (dd k u * dd j u)) + (dd j (EE (dd i u * dd k u)) + dd k (EE (dd i u * dd j u)))).
    Proof.
      assert (H : dd k (EE (u * dd i (dd j u))) = - dd k (EE (dd i u * dd j u))) by (rewrite curvature; apply dd_opp).
      rewrite <- !EE_dd in *. rewrite !dd_mul, !EE_add in *.
      rewrite !(dd_comm A j i) in *. rewrite !(dd_comm A j k) in *. rewrite !(dd_comm A i k) in *.
      replace (dd k (dd i u) * dd j u) with (dd j u * dd k (dd i u)) in * by ring.
      replace (dd k (dd j u) * dd i u) with (dd i u * dd k (dd j u)) in * by ring.
      replace (dd i (dd j u) * dd k u) with (dd k u * dd i (dd j u)) in * by ring.
      set (S := EE (u * dd k (dd i (dd j u)))) in *. set (X := EE (dd k u * dd i (dd j u))) in *.
      set (Y := EE (dd i u * dd k (dd j u))) in *. set (Z := EE (dd j u * dd k (dd i u))) in *.
      change (-1 # 2)%Q with (- (1 # 2))%Q. rewrite qq_opp. set (h := cq (Q2Qc (1 # 2))).
      assert (Hh : h + h = 1) by apply qq_half2.
      transitivity (X + S - X); [ring|]. rewrite H.
      transitivity (- ((h + h) * (X + Y + Z))); [rewrite Hh|]; ring.
    Qed.
  End One.

  Lemma metric_value i a b : (i < n)%nat -> (a < List.length coords)%nat -> (b < List.length coords)%nat ->
    e_fn E (metric i a b) = EE (dd (coord coords a) (e_fn E (FEps i)) * dd (coord coords b) (e_fn E (FEps i))).
  Proof.
    intros Hi Ha Hb. unfold metric, coord. destruct (Nat.ltb_spec b a).
    - rewrite (st_metric _ _ _ HS) by lia. f_equal. ring.
    - apply (st_metric _ _ _ HS); lia.
  Qed.

  Lemma jkey2 f g w w' : is_random f = true -> is_random g = true ->
    jprod E (jkey [(f, w); (g, w')]) = dds w (e_fn E f) * dds w' (e_fn E g).
  Proof.
    intros Hf Hg. rewrite jkey_sound by (intros j [<-|[<-|[]]]; assumption).
    cbn. unfold jv; cbn [fst snd]. ring.
  Qed.
  Lemma jkey1 f : is_random f = true -> jprod E (jkey [(f, [])]) = e_fn E f.
  Proof.
    intros Hf. rewrite jkey_sound by (intros j [<-|[]]; assumption). cbn. unfold jv; cbn [fst snd dds]. ring.
  Qed.

  Lemma upper_in m a b : In (a, b) (upper m) <-> (a <= b)%nat /\ (b < m)%nat.
  Proof.
    unfold upper. rewrite in_flat_map. split.
    - intros (x & Hx & H). apply in_map_iff in H. destruct H as (y & Hy & H). injection Hy as <- <-.
      apply in_seq in Hx. apply in_seq in H. lia.
    - intros [H1 H2]. exists a. split; [apply in_seq; lia|]. apply in_map_iff. exists b. split; [reflexivity|apply in_seq; lia].
  Qed.

  Lemma cindex_coord x a : cindex x coords = Ok a -> (a < List.length coords)%nat /\ coord coords a = x.
  Proof.
    intros H. split; [exact (cindex_lt _ _ _ H)|]. apply cindex_nth in H. unfold coord.
    rewrite (nth_error_nth _ _ _ H). reflexivity.
  Qed.
  Lemma metric_of_value i x y f : (i < n)%nat -> metric_of coords i x y = Ok f ->
    e_fn E f = EE (dd x (e_fn E (FEps i)) * dd y (e_fn E (FEps i))).
  Proof.
    intros Hi. unfold metric_of. destruct (cindex x coords) as [a|] eqn:Hx; cbn [bind]; [|discriminate].
    destruct (cindex y coords) as [b|] eqn:Hy; cbn [bind]; [|discriminate]. intros H; apply Ok_inj in H; rewrite <- H; clear H.
    apply cindex_coord in Hx, Hy. destruct Hx as [Hx <-], Hy as [Hy <-]. apply metric_value; assumption.
  Qed.
  Lemma metric_of_not_var i x y f j : metric_of coords i x y = Ok f -> f <> FVar j.
  Proof.
    unfold metric_of. destruct (cindex x coords) as [a|]; cbn [bind]; [|discriminate].
    destruct (cindex y coords) as [b|]; cbn [bind]; [|discriminate]. intros H; apply Ok_inj in H; rewrite <- H; clear H.
    unfold metric. destruct (Nat.ltb b a); discriminate.
  Qed.

  Variable enum : list mi -> list mi.
  Lemma skewness_entry_value i p l v : (i < n)%nat -> skewness_entry coords i p = Ok (l, v) -> EE (jprod E l) = pv E v.
  Proof.
    intros Hi. unfold skewness_entry. destruct (as_sequence p) as [|k [|a [|b [|]]]]; try discriminate.
    unfold skewness_subs.
    destruct (metric_of coords i k b) as [gkj|] eqn:H1; cbn [bind]; [|discriminate].
    destruct (metric_of coords i a k) as [gik|] eqn:H2; cbn [bind]; [|discriminate].
    destruct (metric_of coords i a b) as [gij|] eqn:H3; cbn [bind]; [|discriminate].
    intros H; apply Ok_inj, pair_inj in H; destruct H as [<- <-].
    rewrite jkey2 by reflexivity. cbn [dds].
    rewrite !(winsert_sound) by apply st_algebraic. cbn [dds].
    rewrite pscale_sound, !padd_sound, !pjet_sound by apply st_algebraic. cbn [dds].
    rewrite (metric_of_value _ _ _ _ Hi H1), (metric_of_value _ _ _ _ Hi H2), (metric_of_value _ _ _ _ Hi H3).
    apply skewness, eps_unit.
  Qed.

  Lemma field_closure_holds i d : (i < n)%nat -> field_closure enum coords i = Ok d -> closure_holds E d.
  Proof.
    intros Hi. unfold field_closure. destruct (all_of_degree enum coords 3) as [ps|]; cbn [bind]; [|discriminate].
    destruct (mapM (skewness_entry coords i) ps) as [sk|] eqn:Hsk; cbn [bind]; [|discriminate].
    intros H; apply Ok_inj in H; rewrite <- H; clear H. pose proof st_algebraic as HE.
    intros l v Hin. apply in_app_iff in Hin. rewrite in_app_iff, in_app_iff in Hin.
    destruct Hin as [[Hin|Hin]|Hin]; [destruct Hin as [H|[H|[H|[H|[]]]]]; apply pair_inj in H; destruct H as [<- <-]|..].
    1: rewrite jkey1 by reflexivity; apply (st_centred _ _ _ HS).
    1: rewrite jkey2 by reflexivity; rewrite pfn_sound by exact HE; symmetry; apply (st_variance _ _ _ HS).
    1: rewrite jkey1 by reflexivity; apply eps_mean.
    1: rewrite jkey2, pone_sound by reflexivity; apply eps_unit.
    1: destruct Hin as [Hin|Hin].
    - apply in_map_iff in Hin. destruct Hin as (c & H & _). apply pair_inj in H; destruct H as [<- <-].
      rewrite jkey2 by reflexivity. apply flat, eps_unit.
    - apply in_map_iff in Hin. destruct Hin as ([a b] & H & Hu). apply pair_inj in H; destruct H as [<- <-].
      apply upper_in in Hu. unfold dim in Hu. cbn [fst snd].
      rewrite jkey2 by reflexivity. rewrite winsert_sound by exact HE. cbn [dds].
      rewrite curvature by apply eps_unit.
      rewrite pscale_sound, pfn_sound, metric_value, qq_m1 by (assumption || lia). ring.
    - apply mapM_Ok_Forall2 in Hsk. apply (In_nth_error) in Hin. destruct Hin as (m & Hm).
      assert (exists p, skewness_entry coords i p = Ok (l, v)) as (p & Hp).
      { clear - Hsk Hm. revert m Hm. induction Hsk as [|x y xs ys Hxy Hr IH]; intros m Hm; [destruct m; discriminate|].
        destruct m; [|eapply IH; exact Hm]. injection Hm as ->. exists x. exact Hxy. }
      exact (skewness_entry_value i p l v Hi Hp).
  Qed.

  Lemma closure_dset l v d : EE (jprod E l) = pv E v -> closure_holds E d -> closure_holds E (dset jets_eq_dec l v d).
  Proof. intros H Hd l' v' Hin. destruct (in_dset _ _ _ _ _ _ Hin) as [[-> ->]|H']; [exact H|apply Hd, H']. Qed.
  Lemma closure_dupdate d e : closure_holds E d -> closure_holds E e -> closure_holds E (dupdate d e).
  Proof. intros Hd He l v Hin. destruct (in_dupdate _ _ _ Hin); [apply Hd|apply He]; assumption. Qed.

  Lemma couples_in eqs i j : In (i, j) (couples eqs) <-> (i < j)%nat /\ (j < List.length eqs)%nat.
  Proof.
    unfold couples, fields, nfields. rewrite in_flat_map. split.
    - intros (x & Hx & H). apply in_flat_map in H. destruct H as (y & Hy & H).
      destruct (Nat.ltb_spec x y); [|destruct H]. destruct H as [H|[]]. apply pair_inj in H; destruct H as [<- <-].
      apply in_seq in Hx, Hy. lia.
    - intros [H1 H2]. exists i. split; [apply in_seq; lia|]. apply in_flat_map. exists j. split; [apply in_seq; lia|].
      destruct (Nat.ltb_spec i j); [left; reflexivity|lia].
  Qed.

  Lemma internal_closure_holds eqs d : List.length eqs = n -> internal_closure enum coords eqs = Ok d -> closure_holds E d.
  Proof.
    intros Hn. unfold internal_closure.
    destruct (mapM (field_closure enum coords) (fields eqs)) as [ds|] eqn:Hds; cbn [bind]; [|discriminate].
    intros H; apply Ok_inj in H; rewrite <- H; clear H d.
    assert (Hall : forall d, In d ds -> closure_holds E d).
    { apply mapM_Ok_Forall2 in Hds. intros d Hd. apply In_nth_error in Hd. destruct Hd as (m & Hm).
      assert (exists i, In i (fields eqs) /\ field_closure enum coords i = Ok d) as (i & Hi & Hp).
      { clear - Hds Hm. revert m Hm. induction Hds as [|x y xs ys Hxy Hr IH]; intros m Hm; [destruct m; discriminate|].
        destruct m; [injection Hm as ->; exists x; split; [left; reflexivity|exact Hxy]|].
        destruct (IH m Hm) as (i & H1 & H2). exists i. split; [right; exact H1|exact H2]. }
      apply (field_closure_holds i d); [|exact Hp]. unfold fields, nfields in Hi. apply in_seq in Hi. lia. }
    assert (Hbase : forall d0, closure_holds E d0 -> closure_holds E (fold_left dupdate ds d0)).
    { clear Hds. induction ds as [|d ds IH]; intros d0 H0; cbn [fold_left]; [exact H0|].
      apply IH; [intros; apply Hall; right; assumption|].
      apply closure_dupdate; [exact H0|apply Hall; left; reflexivity]. }
    specialize (Hbase [] (fun l v H => match H with end)).
    assert (Hc : forall ij, In ij (couples eqs) -> (fst ij < snd ij)%nat /\ (snd ij < n)%nat).
    { intros [i j] H. apply couples_in in H. cbn. lia. }
    revert Hbase Hc. generalize (fold_left dupdate ds []). generalize (couples eqs). clear Hds Hall.
    induction l as [|[i j] l IH]; intros d Hd Hc; cbn [fold_left]; [exact Hd|].
    apply IH; [|intros; apply Hc; right; assumption].
    destruct (Hc (i, j) (or_introl eq_refl)) as [Hij Hj]. cbn [fst snd] in Hij, Hj.
    pose proof st_algebraic as HE.
    apply closure_dset; [|apply closure_dset; [|exact Hd]].
    - rewrite jkey2 by reflexivity. cbn [dds]. rewrite pmulm_sound, pfn_sound, qq_1 by exact HE.
      rewrite !mv_cons, mv_nil. cbn [av]. rewrite (st_cov _ _ _ HS) by assumption. rewrite !(st_eps _ _ _ HS).
      replace (e_isig E i * e_fn E (FErr i) * (e_isig E j * e_fn E (FErr j)))
        with (e_isig E i * e_isig E j * (e_fn E (FErr i) * e_fn E (FErr j))) by ring.
      rewrite EE_det_l by (apply det_mul; apply isig_is_det). ring.
    - rewrite jkey2, pfn_sound by (reflexivity || exact HE). cbn [dds]. symmetry. apply (st_cov _ _ _ HS); assumption.
  Qed.

  (** *** the substitution tree *)
  Lemma word_of_sound o (a : A) : dds (word_of coords o) a = deriv coords o a.
  Proof.
    unfold word_of.
    assert (W : forall l, dds (fold_right winsert [] l) a = dds l a).
    { induction l as [|c l IH]; cbn [fold_right]; [reflexivity|]. rewrite winsert_sound by apply st_algebraic. cbn [dds]. rewrite IH. reflexivity. }
    rewrite W. clear HS. revert o. induction coords as [|c cs IH]; intros [|z o]; try reflexivity.
    cbn [combine map List.concat fst snd deriv]. rewrite dds_app, IH.
    generalize (deriv cs o a). induction (Z.to_nat z) as [|m IHm]; intros b; [reflexivity|].
    cbn [repeat dds Nat.iter]. rewrite IHm. reflexivity.
  Qed.
  Lemma tree_key_sound i k : EE (jprod E (tree_key coords i k)) = moment coords (e_fn E (FEps i)) (fst k) (snd k).
  Proof. unfold tree_key. rewrite jkey2, !word_of_sound by reflexivity. reflexivity. Qed.
  Lemma tree_value_sound i e : pv E (tree_value coords i e) = expr_value coords (e_fn E (FEps i)) e.
  Proof.
    pose proof st_algebraic as HE. unfold tree_value. rewrite psum_sound by exact HE.
    induction e as [|[[c ds] k] e IH]; [reflexivity|]. cbn [map fold_right expr_value]. rewrite IH. f_equal.
    rewrite pscale_sound, pderivs_sound, p1_sound by exact HE. rewrite mv_cons, mv_nil. cbn [av dds].
    rewrite tree_key_sound. unfold zq. f_equal. f_equal. ring.
  Qed.

  Variable enumD : tdict -> tdict.
  Variable enumC : edict -> edict.
  Hypothesis Henum : forall l, Permutation (enum l) l.
  Hypothesis HenumD : forall l, Permutation (enumD l) l.
  Hypothesis HenumC : forall l, Permutation (enumC l) l.
  Hypothesis Hcoords : NoDup coords.
  Hypothesis Hne : coords <> [].

  Lemma closure_enum d : closure_holds E d -> closure_holds E (enumC d).
  Proof. intros H l v Hin. apply H. apply (Permutation_in _ (HenumC d)), Hin. Qed.

  Lemma closed_tree_holds cl i degree d : closure_holds E cl ->
    closed_tree enum enumD enumC coords cl i degree = Ok d -> closure_holds E d.
  Proof.
    intros Hcl. unfold closed_tree.
    destruct (fst (tree_call enum enumD true coords tree_init (Some degree))) as [rules|] eqn:HR; cbn [bind]; [|discriminate].
    intros H; apply Ok_inj in H; rewrite <- H; clear H. intros l v Hin. apply in_map_iff in Hin. destruct Hin as ([[a b] e] & H & Hin).
    apply pair_inj in H; destruct H as [<- <-]. cbn [fst snd].
    rewrite (sub_exps_sound E st_algebraic) by (apply closure_enum, Hcl).
    rewrite tree_key_sound, tree_value_sound. cbn [fst snd]. symmetry.
    exact (C38_rules_are_identities enum enumD true coords Henum HenumD Hcoords Hne [] (Some degree) rules HR A _ a b e Hin).
  Qed.
End Rules.
