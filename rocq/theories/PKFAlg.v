(** Soundness of the polynomial operations of PKFModel: each of them computes the value it
    stands for, in every algebra of random fields. *)
From Coq Require Import List Arith Ring QArith Qcanon Bool String Permutation.
From Verif Require Import PyBase Reynolds PKFModel PKFSpec.
Import ListNotations.
Close Scope Q_scope.
Close Scope Qc_scope.
Open Scope nat_scope.
Open Scope string_scope.
Open Scope list_scope.

(** what the algebraic operations need *)
Record algebraic {A : RAlg} (E : env A) : Prop := {
  al_isig : forall i, (e_sig E i * e_isig E i = 1)%ra;
  al_var : forall i, (e_fn E (FVar i) = e_sig E i * e_sig E i)%ra;
  al_ext : forall k deps c, ~ In c deps -> (dd c (e_fn E (FExt k deps)) = 0)%ra;
  al_cst : forall k c, (dd c (e_cst E k) = 0)%ra;
  al_small : forall c, (dd c (e_small E) = 0)%ra }.

(** what averages need *)
Record averaged {A : RAlg} (E : env A) : Prop := {
  ag_det : forall f, is_random f = false -> det (e_fn E f);
  ag_cst : forall k, det (e_cst E k);
  ag_small : det (e_small E);
  ag_sig : forall i, det (e_sig E i);
  ag_centred : forall f, is_random f = true -> (EE (e_fn E f) = 0)%ra }.

Section Alg.
  Context {A : RAlg} (E : env A).
  Add Ring A_ring : (c_th A).
  Open Scope ra_scope.
  Notation qq c := (cq (Q2Qc c)).

  (** *** coefficients *)
  Lemma qq_eq a b : (a == b)%Q -> (qq a : A) = qq b.
  Proof. intros H. apply (f_equal (@cq A)). apply Qc_is_canon. cbn [this Q2Qc Qcplus Qcmult Qcopp]. rewrite !Qred_correct. exact H. Qed.
  Lemma qq_red a : (qq (Qred a) : A) = qq a.
  Proof. apply qq_eq. apply Qred_correct. Qed.
  Lemma qq_0 : (qq 0 : A) = 0.
  Proof. apply cq_0. Qed.
  Lemma qq_zero a : Qeq_bool a 0 = true -> (qq a : A) = 0.
  Proof. intros H. rewrite (qq_eq a 0 (Qeq_bool_eq _ _ H)). apply qq_0. Qed.
  Lemma qq_1 : (qq 1 : A) = 1.
  Proof. rewrite <- (cq_1 A). apply (f_equal (@cq A)). apply Qc_is_canon; reflexivity. Qed.
  Lemma qq_add a b : (qq (a + b)%Q : A) = qq a + qq b.
  Proof.
    rewrite <- cq_add. apply (f_equal (@cq A)). apply Qc_is_canon. cbn [this Q2Qc Qcplus Qcmult Qcopp]. rewrite !Qred_correct. reflexivity.
  Qed.
  Lemma qq_mul a b : (qq (a * b)%Q : A) = qq a * qq b.
  Proof.
    rewrite <- cq_mul. apply (f_equal (@cq A)). apply Qc_is_canon. cbn [this Q2Qc Qcplus Qcmult Qcopp]. rewrite !Qred_correct. reflexivity.
  Qed.
  Lemma qq_opp a : (qq (- a)%Q : A) = - qq a.
  Proof.
    rewrite <- cq_opp. apply (f_equal (@cq A)). apply Qc_is_canon. cbn [this Q2Qc Qcplus Qcmult Qcopp]. rewrite !Qred_correct. reflexivity.
  Qed.
  Lemma qq_m1 : (qq (-1) : A) = - (1).
  Proof. change ((-1)%Q) with (- (1))%Q. rewrite qq_opp, qq_1. reflexivity. Qed.
  Lemma qq_half2 : (qq (1 # 2) + qq (1 # 2) : A) = 1.
  Proof. rewrite <- qq_add, <- qq_1. apply qq_eq. reflexivity. Qed.

  (** *** products *)
  Hypothesis HE : algebraic E.

  Lemma mv_cons a m : mv E (a :: m) = av E a * mv E m.
  Proof. reflexivity. Qed.
  Lemma mv_nil : mv E [] = 1.
  Proof. reflexivity. Qed.
  Lemma insert_sound a m : mv E (insert_atom a m) = av E a * mv E m.
  Proof.
    induction m as [|b r IH]; [reflexivity|]. cbn [insert_atom]. destruct (atom_lt b a); [|reflexivity].
    rewrite !mv_cons, IH. ring.
  Qed.
  Lemma remove_sound a m r : remove_atom a m = Some r -> mv E m = av E a * mv E r.
  Proof.
    revert r. induction m as [|b m IH]; intros r H; cbn [remove_atom] in H; [discriminate|].
    destruct (atom_eq_dec a b) as [->|]; [injection H as <-; reflexivity|].
    destruct (remove_atom a m) as [r'|]; [|discriminate]. injection H as <-.
    rewrite !mv_cons, (IH r' eq_refl). ring.
  Qed.
  Lemma mins_sound a m : mv E (mins a m) = av E a * mv E m.
  Proof.
    unfold mins. destruct (inverse a) as [b|] eqn:Hi; [|apply insert_sound].
    destruct (remove_atom b m) as [r|] eqn:Hr; [|apply insert_sound].
    rewrite (remove_sound _ _ _ Hr).
    assert (H : av E a * av E b = 1).
    { destruct a; try discriminate; injection Hi as <-; cbn; [|rewrite (ARmul_comm (Rth_ARth (Eqsth A) (Eq_ext _ _ _) (c_th A)))];
        apply (al_isig _ HE). }
    transitivity (av E a * av E b * mv E r); [rewrite H|]; ring.
  Qed.
  Lemma mmul_sound a b : mv E (mmul a b) = mv E a * mv E b.
  Proof.
    unfold mmul. induction a as [|x a IH]; cbn [fold_right]; [rewrite mv_nil; ring|].
    rewrite mins_sound, IH, mv_cons. ring.
  Qed.
  Lemma mv_app a b : mv E (a ++ b) = mv E a * mv E b.
  Proof. induction a as [|x a IH]; cbn [app]; [rewrite mv_nil; ring|]. rewrite !mv_cons, IH. ring. Qed.

  (** *** sums *)
  Lemma pv_cons t p : pv E (t :: p) = qq (fst t) * mv E (snd t) + pv E p.
  Proof. reflexivity. Qed.
  Lemma pv_nil : pv E [] = 0.
  Proof. reflexivity. Qed.
  Lemma pins_sound t p : pv E (pins t p) = qq (fst t) * mv E (snd t) + pv E p.
  Proof.
    induction p as [|u r IH].
    - cbn [pins]. destruct (Qeq_bool (fst t) 0) eqn:Hz; [|reflexivity].
      rewrite (qq_zero _ Hz), pv_nil. ring.
    - cbn [pins]. destruct (Qeq_bool (fst t) 0) eqn:Hz; [rewrite (qq_zero _ Hz); ring|].
      destruct (list_eq_dec atom_eq_dec (snd t) (snd u)) as [He|Hne].
      + rewrite pv_cons, He. destruct (Qeq_bool (Qred (fst t + fst u)) 0) eqn:Hs.
        * assert (H : qq (fst t) + qq (fst u) = (0 : A)).
          { rewrite <- qq_add, <- qq_red. apply qq_zero, Hs. }
          transitivity ((qq (fst t) + qq (fst u)) * mv E (snd u) + pv E r); [rewrite H|]; ring.
        * rewrite pv_cons. cbn [fst snd]. rewrite qq_red, qq_add. ring.
      + destruct (mono_lt (snd u) (snd t)).
        * rewrite !pv_cons, IH. ring.
        * rewrite !pv_cons. ring.
  Qed.
  Lemma padd_sound p q : pv E (padd p q) = pv E p + pv E q.
  Proof.
    unfold padd. induction p as [|t p IH]; cbn [fold_right]; [rewrite ?pv_nil; ring|].
    rewrite pins_sound, IH, pv_cons. ring.
  Qed.
  Lemma pscale_sound c p : pv E (pscale c p) = qq c * pv E p.
  Proof.
    unfold pscale. induction p as [|t p IH]; cbn [fold_right]; [rewrite ?pv_nil; ring|].
    rewrite pins_sound, IH, pv_cons. cbn [fst snd]. rewrite qq_red, qq_mul. ring.
  Qed.
  Lemma psub_sound p q : pv E (psub p q) = pv E p - pv E q.
  Proof. unfold psub. rewrite padd_sound, pscale_sound, qq_m1. ring. Qed.
  Lemma pmulm_sound c m p : pv E (pmulm c m p) = qq c * mv E m * pv E p.
  Proof.
    unfold pmulm. induction p as [|t p IH]; cbn [fold_right]; [rewrite ?pv_nil; ring|].
    rewrite pins_sound, IH, pv_cons. cbn [fst snd]. rewrite qq_red, qq_mul, mmul_sound. ring.
  Qed.
  Lemma pmul_sound p q : pv E (pmul p q) = pv E p * pv E q.
  Proof.
    unfold pmul. induction p as [|t p IH]; cbn [fold_right]; [rewrite ?pv_nil; ring|].
    rewrite padd_sound, pmulm_sound, IH, pv_cons. ring.
  Qed.
  Lemma pone_sound : pv E pone = 1.
  Proof. unfold pone. rewrite pv_cons, pv_nil. cbn [fst snd]. rewrite mv_nil, qq_1. ring. Qed.
  Lemma pterm_sound c m : pv E [(c, m)] = qq c * mv E m.
  Proof. rewrite pv_cons, pv_nil. cbn [fst snd]. ring. Qed.
  Lemma p1_sound m : pv E [(1%Q, m)] = mv E m.
  Proof. rewrite pterm_sound, qq_1. ring. Qed.
  Lemma patom_sound a : pv E (patom a) = av E a.
  Proof. unfold patom. rewrite p1_sound, mins_sound, mv_nil. ring. Qed.
  Lemma pprod_sound l : pv E (pprod l) = fold_right (fun p s => pv E p * s) 1 l.
  Proof.
    unfold pprod. induction l as [|p l IH]; cbn [fold_right]; [apply pone_sound|].
    rewrite pmul_sound, IH. reflexivity.
  Qed.
  Lemma psum_sound l : pv E (psum l) = fold_right (fun p s => pv E p + s) 0 l.
  Proof.
    unfold psum. induction l as [|p l IH]; cbn [fold_right]; [reflexivity|].
    rewrite padd_sound, IH. reflexivity.
  Qed.

  (** *** derivatives *)
  Lemma winsert_sound c w (a : A) : dds (winsert c w) a = dd c (dds w a).
  Proof.
    induction w as [|d r IH]; cbn [winsert]; [reflexivity|].
    destruct (string_lt d c); [|reflexivity]. cbn [dds]. rewrite IH. apply dd_comm.
  Qed.
  Lemma dds_zero_in w c (a : A) : In c w -> dd c a = 0 -> dds w a = 0.
  Proof.
    induction w as [|d r IH]; intros Hin Hz; [destruct Hin|]. cbn [dds].
    destruct Hin as [->|Hin]; [|rewrite (IH Hin Hz); apply dd_0].
    rewrite <- dds_dd, Hz. apply dds_0.
  Qed.
  Lemma pjet_sound f w : pv E (pjet f w) = dds w (e_fn E f).
  Proof.
    assert (D : pv E [(1%Q, [AJet f w])] = dds w (e_fn E f)) by (rewrite p1_sound, mv_cons, mv_nil; cbn [av]; ring).
    destruct f; try exact D; unfold pjet.
    - destruct w; [|exact D]. rewrite p1_sound, !mv_cons, mv_nil. cbn [av dds]. rewrite (al_var _ HE). ring.
    - destruct (forallb (fun c => lmem string_dec c deps) w) eqn:Hf; [exact D|].
      assert (exists c, In c w /\ ~ In c deps) as (c & Hc & Hn).
      { clear D. induction w as [|d r IH]; [discriminate|]. cbn [forallb] in Hf. apply andb_false_iff in Hf.
        destruct Hf as [Hf|Hf].
        - exists d. split; [left; reflexivity|]. intros Hd. unfold lmem in Hf.
          destruct (in_dec string_dec d deps); [discriminate|contradiction].
        - destruct (IH Hf) as (c & H1 & H2). exists c. split; [right; exact H1|exact H2]. }
      symmetry. cbn. apply (dds_zero_in w c); [exact Hc|]. apply (al_ext _ HE), Hn.
  Qed.
  Lemma pjet1_sound f c : pv E (pjet f [c]) = dd c (e_fn E f).
  Proof. apply pjet_sound. Qed.
  Lemma pfn_sound f : pv E (pfn f) = e_fn E f.
  Proof. apply pjet_sound. Qed.
  Lemma dd_sig c i : dd c (e_sig E i) = qq (1 # 2) * e_isig E i * dd c (e_fn E (FVar i)).
  Proof.
    rewrite (al_var _ HE), dd_mul.
    transitivity ((qq (1 # 2) + qq (1 # 2)) * (e_sig E i * e_isig E i) * dd c (e_sig E i)).
    - rewrite qq_half2, (al_isig _ HE). ring.
    - ring.
  Qed.
  Lemma dd_isig c i : dd c (e_isig E i) = - (e_isig E i * e_isig E i * dd c (e_sig E i)).
  Proof.
    assert (H : dd c (e_sig E i * e_isig E i) = 0) by (rewrite (al_isig _ HE); apply dd_1).
    rewrite dd_mul in H.
    assert (H2 : e_isig E i * (dd c (e_sig E i) * e_isig E i + e_sig E i * dd c (e_isig E i)) = 0)
      by (rewrite H; ring).
    transitivity ((e_sig E i * e_isig E i) * dd c (e_isig E i)); [rewrite (al_isig _ HE); ring|].
    transitivity (e_isig E i * (dd c (e_sig E i) * e_isig E i + e_sig E i * dd c (e_isig E i))
                  - e_isig E i * e_isig E i * dd c (e_sig E i)); [|rewrite H2]; ring.
  Qed.
  Lemma datom_sound c a : pv E (datom c a) = dd c (av E a).
  Proof.
    destruct a; cbn [datom av].
    - rewrite pjet_sound, winsert_sound. reflexivity.
    - rewrite p1_sound, mv_cons, mv_nil. cbn [av]. rewrite winsert_sound. ring.
    - symmetry. apply (al_cst _ HE).
    - symmetry. apply (al_small _ HE).
    - rewrite pmulm_sound, pjet_sound, dd_sig, mv_cons, mv_nil. cbn [av dds]. ring.
    - rewrite pmulm_sound, pjet_sound, dd_isig, dd_sig.
      change (-1 # 2)%Q with (- (1 # 2))%Q. rewrite qq_opp, !mv_cons, mv_nil. cbn [av dds]. ring.
  Qed.
  Lemma dmono_sound c m : pv E (dmono c m) = dd c (mv E m).
  Proof.
    induction m as [|a r IH]; cbn [dmono].
    - cbn. symmetry. apply dd_1.
    - rewrite padd_sound, !pmulm_sound, datom_sound, IH.
      change (mv E (a :: r)) with (av E a * mv E r). rewrite dd_mul, qq_1, (mv_cons a []), mv_nil. ring.
  Qed.
  Lemma pderiv_sound c p : pv E (pderiv c p) = dd c (pv E p).
  Proof.
    unfold pderiv. induction p as [|t p IH]; cbn [fold_right].
    - symmetry. apply dd_0.
    - rewrite padd_sound, pscale_sound, dmono_sound, IH, pv_cons, dd_add, dd_scal. reflexivity.
  Qed.
  Lemma pderivs_sound w p : pv E (pderivs w p) = dds w (pv E p).
  Proof.
    unfold pderivs. induction w as [|c w IH]; cbn [fold_right dds]; [reflexivity|].
    rewrite pderiv_sound, IH. reflexivity.
  Qed.

  (** *** substitution without averages inside *)
  Definition noexp_mono (m : mono) : Prop := forall w l, ~ In (AExp w l) m.
  Definition noexp (p : poly) : Prop := forall c m, In (c, m) p -> noexp_mono m.
  Lemma prod_map_sound {B} (f g : B -> A) l : (forall b, In b l -> f b = g b) ->
    fold_right (fun b s => f b * s) 1 l = fold_right (fun b s => g b * s) 1 l.
  Proof.
    induction l as [|b l IH]; intros H; cbn; [reflexivity|].
    rewrite (H b), IH; [reflexivity|intros; apply H; right; assumption|left; reflexivity].
  Qed.
  Lemma fold_map {B D} (h : D -> B) (f : B -> A -> A) a l :
    fold_right f a (map h l) = fold_right (fun b s => f (h b) s) a l.
  Proof. induction l; cbn; congruence. Qed.

  (** replacing atoms by polynomials of the same value *)
  Lemma replace_sound (h : atom -> poly) (v : atom -> A) p :
    (forall c m a, In (c, m) p -> In a m -> pv E (h a) = v a) ->
    pv E (psum (map (fun t => pscale (fst t) (pprod (map h (snd t)))) p))
    = fold_right (fun t s => qq (fst t) * fold_right (fun a s => v a * s) 1 (snd t) + s) 0 p.
  Proof.
    intros H. rewrite psum_sound, fold_map. induction p as [|t p IH]; cbn [fold_right]; [reflexivity|].
    rewrite IH by (intros; eapply H; [right; eassumption|assumption]). f_equal.
    rewrite pscale_sound, pprod_sound, fold_map. f_equal. apply prod_map_sound.
    intros a Ha. apply (H (fst t) (snd t)); [left; destruct t; reflexivity|exact Ha].
  Qed.

  (** *** averages *)
  Hypothesis HA : averaged E.
  Lemma isig_det i : det (e_isig E i).
  Proof.
    unfold det. transitivity (e_sig E i * e_isig E i * EE (e_isig E i)); [rewrite (al_isig _ HE); ring|].
    transitivity (e_isig E i * (e_sig E i * EE (e_isig E i))); [ring|].
    rewrite <- EE_det_l by apply (ag_sig _ HA). rewrite (al_isig _ HE), EE_1. ring.
  Qed.
  Lemma av_det a : (forall f w, a = AJet f w -> is_random f = false) -> det (av E a).
  Proof.
    intros H. destruct a; cbn [av].
    - apply det_dds, (ag_det _ HA). eapply H; reflexivity.
    - apply det_dds, det_EE.
    - apply (ag_cst _ HA).
    - apply (ag_small _ HA).
    - apply (ag_sig _ HA).
    - apply isig_det.
  Qed.
  Lemma split_sound m : mv E m = mv E (det_part m) * jprod E (random_jets m).
  Proof.
    induction m as [|a m IH]; [rewrite mv_nil; cbn [random_jets jprod fold_right flat_map det_part filter]; rewrite mv_nil; ring|].
    change (mv E (a :: m)) with (av E a * mv E m). rewrite IH.
    unfold det_part, random_jets. cbn [filter flat_map].
    destruct a; try (cbn [negb app]; rewrite mv_cons; ring).
    destruct (is_random f) eqn:Hr; cbn [negb app]; [|rewrite mv_cons; ring].
    change (jprod E ((f, w) :: ?l)) with (dds w (e_fn E f) * jprod E l). cbn [av]. ring.
  Qed.
  Lemma det_part_det m : det (mv E (det_part m)).
  Proof.
    induction m as [|a m IH]; [apply det_1|]. unfold det_part. cbn [filter].
    destruct a; try (apply det_mul; [apply av_det; intros; discriminate|exact IH]).
    destruct (is_random f) eqn:Hr; cbn [negb]; [exact IH|].
    apply det_mul; [apply av_det; intros ? ? H; injection H as <- _; exact Hr|exact IH].
  Qed.
  Lemma random_jets_random m j : In j (random_jets m) -> is_random (fst j) = true.
  Proof.
    unfold random_jets. intros H. apply in_flat_map in H. destruct H as (a & _ & H).
    destruct a; try destruct H. destruct (is_random f) eqn:Hr; [|destruct H].
    destruct H as [<-|[]]. exact Hr.
  Qed.
  Lemma expect_jets_sound l : (forall j, In j l -> is_random (fst j) = true) ->
    pv E (expect_jets l) = EE (jprod E l).
  Proof.
    intros H. destruct l as [|[f w] [|j l]]; cbn [expect_jets].
    - rewrite pone_sound. cbn. symmetry. apply EE_1.
    - assert (Z : EE (e_fn E f) = 0) by (apply (ag_centred _ HA), (H (f, w)); left; reflexivity).
      rewrite p1_sound. cbn. unfold jv; cbn [fst snd dds].
      replace (e_fn E f * 1) with (e_fn E f) by ring.
      replace (dds w (e_fn E f) * 1) with (dds w (e_fn E f)) by ring.
      rewrite EE_dds, Z, !dds_0. ring.
    - rewrite p1_sound. cbn [mv fold_right av dds]. ring.
  Qed.
  Lemma expect_sound p : pv E (expect p) = EE (pv E p).
  Proof.
    unfold expect. rewrite psum_sound, fold_map. induction p as [|t p IH]; cbn [fold_right].
    - symmetry. apply EE_0.
    - rewrite IH, pv_cons, EE_add. f_equal.
      rewrite pmulm_sound, expect_jets_sound by apply random_jets_random.
      rewrite (split_sound (snd t)).
      rewrite (EE_det_l (qq (fst t))) by apply det_cq. rewrite (EE_det_l (mv E (det_part (snd t)))) by apply det_part_det.
      ring.
  Qed.

  (** *** substitutions by equal values change nothing *)
  Lemma pv_fold p : pv E p = fold_right (fun t s => qq (fst t) * fold_right (fun a s => av E a * s) 1 (snd t) + s) 0 p.
  Proof. reflexivity. Qed.
  Lemma psubst_sound g p : (forall f w, pv E (g f w) = dds w (e_fn E f)) -> pv E (psubst g p) = pv E p.
  Proof.
    intros Hg. rewrite (pv_fold p). unfold psubst. apply replace_sound. intros c m a _ _.
    destruct a; cbn [asubst]; try apply patom_sound.
    - apply Hg.
    - rewrite pderivs_sound, expect_sound, pprod_sound, fold_map. cbn [av]. do 2 f_equal.
      apply prod_map_sound. intros j _. apply Hg.
  Qed.
  Lemma sub_fn_sound f v p : pv E v = e_fn E f -> pv E (sub_fn f v p) = pv E p.
  Proof.
    intros H. apply psubst_sound. intros f' w. destruct (fn_eq_dec f' f) as [->|]; [|apply pjet_sound].
    rewrite pderivs_sound, H. reflexivity.
  Qed.
  Lemma sub_fns_sound d : (forall f v, In (f, v) d -> pv E v = e_fn E f) -> forall p, pv E (sub_fns d p) = pv E p.
  Proof.
    unfold sub_fns. induction d as [|[f v] d IH]; intros H p; cbn [fold_left fst snd]; [reflexivity|].
    rewrite IH by (intros; apply H; right; assumption). apply sub_fn_sound, H. left; reflexivity.
  Qed.
  Lemma wremove_sound c w w' (a : A) : wremove c w = Some w' -> dds w a = dds w' (dd c a).
  Proof.
    revert w'. induction w as [|d r IH]; intros w' H; cbn [wremove] in H; [discriminate|].
    destruct (string_dec c d) as [<-|].
    - injection H as <-. cbn. symmetry. apply dds_dd.
    - destruct (wremove c r) as [r'|]; [|discriminate]. injection H as <-. cbn [dds]. rewrite (IH _ eq_refl). reflexivity.
  Qed.
  Lemma sub_trend_sound f v p : pv E v = dd "t" (e_fn E f) -> pv E (sub_trend f v p) = pv E p.
  Proof.
    intros H. apply psubst_sound. intros f' w. destruct (fn_eq_dec f' f) as [->|]; [|apply pjet_sound].
    destruct (wremove "t" w) as [w'|] eqn:Hw; [|apply pjet_sound].
    rewrite pderivs_sound, H. symmetry. apply wremove_sound, Hw.
  Qed.
  Lemma sub_trends_sound d : (forall f v, In (f, v) d -> pv E v = dd "t" (e_fn E f)) ->
    forall p, pv E (sub_trends d p) = pv E p.
  Proof.
    unfold sub_trends. induction d as [|[f v] d IH]; intros H p; cbn [fold_left fst snd]; [reflexivity|].
    rewrite IH by (intros; apply H; right; assumption). apply sub_trend_sound, H. left; reflexivity.
  Qed.
  Lemma sub_exp_sound l v p : pv E v = EE (jprod E l) -> pv E (sub_exp l v p) = pv E p.
  Proof.
    intros H. rewrite (pv_fold p). unfold sub_exp. apply replace_sound. intros c m a _ _.
    destruct a; try apply patom_sound. destruct (jets_eq_dec l0 l) as [->|]; [|apply patom_sound].
    rewrite pderivs_sound, H. reflexivity.
  Qed.
  Lemma sub_exps_sound d : closure_holds E d -> forall p, pv E (sub_exps d p) = pv E p.
  Proof.
    unfold sub_exps. induction d as [|[l v] d IH]; intros H p; cbn [fold_left fst snd]; [reflexivity|].
    rewrite IH by (intros ? ? ?; apply H; right; assumption). apply sub_exp_sound. symmetry. apply H. left; reflexivity.
  Qed.
End Alg.

(** a key is a rearrangement of its factors *)
Section Keys.
  Context {A : RAlg} (E : env A).
  Add Ring A_ring2 : (c_th A).
  Open Scope ra_scope.
  Lemma insert_perm a m : Permutation (insert_atom a m) (a :: m).
  Proof.
    induction m as [|b r IH]; cbn [insert_atom]; [constructor; constructor|].
    destruct (atom_lt b a); [|reflexivity].
    transitivity (b :: a :: r); [constructor; exact IH|constructor].
  Qed.
  Lemma jkey_perm l : (forall j, In j l -> is_random (fst j) = true) -> Permutation (jkey l) l.
  Proof.
    intros H. unfold jkey, mmul.
    assert (P : Permutation (fold_right mins [] (map (fun j => AJet (fst j) (snd j)) l)) (map (fun j => AJet (fst j) (snd j)) l)).
    { clear H. induction l as [|j l IH]; cbn [map fold_right]; [constructor|].
      change (mins (AJet (fst j) (snd j)) ?m) with (insert_atom (AJet (fst j) (snd j)) m).
      rewrite insert_perm. constructor. exact IH. }
    assert (F : forall a b, Permutation a b -> Permutation (random_jets a) (random_jets b)).
    { intros a b HP. unfold random_jets. apply Permutation_flat_map, HP. }
    transitivity (random_jets (map (fun j => AJet (fst j) (snd j)) l)); [apply F, P|].
    clear P F. induction l as [|[f w] l IH]; [constructor|].
    change (random_jets (map (fun j => AJet (fst j) (snd j)) ((f, w) :: l)))
      with ((if is_random f then [(f, w)] else []) ++ random_jets (map (fun j => AJet (fst j) (snd j)) l)).
    pose proof (H (f, w) (or_introl eq_refl)) as Hf; cbn in Hf; rewrite Hf. constructor. apply IH. intros; apply H; right; assumption.
  Qed.
  Lemma jprod_perm l l' : Permutation l l' -> jprod E l = jprod E l'.
  Proof.
    induction 1; cbn; [reflexivity|..].
    - unfold jprod in IHPermutation. rewrite IHPermutation. reflexivity.
    - ring.
    - congruence.
  Qed.
  Lemma jkey_sound l : (forall j, In j l -> is_random (fst j) = true) -> jprod E (jkey l) = jprod E l.
  Proof. intros H. apply jprod_perm, jkey_perm, H. Qed.
End Keys.
