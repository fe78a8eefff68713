(** Values of expressions when the time derivatives of the functions are given freely: [J f] is
    the value of the time derivative of [f], unrelated to any evolution.  The operations of PKFModel
    have the expected values, and replacing the time derivative of a function gives it a new value. *)
From Coq Require Import List Arith Ring ZArith QArith Qcanon Bool String Permutation Lia.
From Verif Require Import PyBase PyBaseFacts PartialOrderModel TreeModel Reynolds PKFModel PKFSpec PKFAlg PKFAtoms PKFWords PKFTime.
Import ListNotations.
Close Scope Q_scope.
Close Scope Qc_scope.
Close Scope Z_scope.
Open Scope nat_scope.
Open Scope string_scope.
Open Scope list_scope.

(** *** polynomials under any valuation of the atoms *)
Section Val.
  Context {A : RAlg}.
  Add Ring A_ring7 : (c_th A).
  Open Scope ra_scope.
  Notation qq c := (cq (Q2Qc c)).
  Variable va : atom -> A.
  Hypothesis Hinv : forall i, va (ASig i) * va (AIsig i) = 1.
  Definition vm (m : mono) : A := fold_right (fun a p => va a * p) 1 m.
  Definition vp (p : poly) : A := fold_right (fun t s => qq (fst t) * vm (snd t) + s) 0 p.
  Lemma vm_cons a m : vm (a :: m) = va a * vm m. Proof. reflexivity. Qed.
  Lemma vm_nil : vm [] = 1. Proof. reflexivity. Qed.
  Lemma vp_cons t p : vp (t :: p) = qq (fst t) * vm (snd t) + vp p. Proof. reflexivity. Qed.
  Lemma vp_nil : vp [] = 0. Proof. reflexivity. Qed.
  Lemma vm_insert a m : vm (insert_atom a m) = va a * vm m.
  Proof.
    induction m as [|b r IH]; [reflexivity|]. cbn [insert_atom]. destruct (atom_lt b a); [|reflexivity].
    rewrite !vm_cons, IH. ring.
  Qed.
  Lemma vm_remove a m r : remove_atom a m = Some r -> vm m = va a * vm r.
  Proof.
    revert r. induction m as [|b m IH]; intros r H; cbn [remove_atom] in H; [discriminate|].
    destruct (atom_eq_dec a b) as [->|]; [injection H as <-; reflexivity|].
    destruct (remove_atom a m) as [r'|]; [|discriminate]. injection H as <-.
    rewrite !vm_cons, (IH r' eq_refl). ring.
  Qed.
  Lemma vm_mins a m : vm (mins a m) = va a * vm m.
  Proof.
    unfold mins. destruct (inverse a) as [b|] eqn:Hi; [|apply vm_insert].
    destruct (remove_atom b m) as [r|] eqn:Hr; [|apply vm_insert].
    rewrite (vm_remove _ _ _ Hr).
    assert (H : va a * va b = 1).
    { destruct a; try discriminate; injection Hi as <-; [|rewrite (ARmul_comm (Rth_ARth (Eqsth A) (Eq_ext _ _ _) (c_th A)))]; apply Hinv. }
    transitivity (va a * va b * vm r); [rewrite H|]; ring.
  Qed.
  Lemma vm_mmul a b : vm (mmul a b) = vm a * vm b.
  Proof.
    unfold mmul. induction a as [|x a IH]; cbn [fold_right]; [rewrite vm_nil; ring|].
    rewrite vm_mins, IH, vm_cons. ring.
  Qed.
  Lemma vp_pins t p : vp (pins t p) = qq (fst t) * vm (snd t) + vp p.
  Proof.
    induction p as [|u r IH].
    - cbn [pins]. destruct (Qeq_bool (fst t) 0) eqn:Hz; [|reflexivity].
      rewrite (qq_zero _ Hz), vp_nil. ring.
    - cbn [pins]. destruct (Qeq_bool (fst t) 0) eqn:Hz; [rewrite (qq_zero _ Hz); ring|].
      destruct (list_eq_dec atom_eq_dec (snd t) (snd u)) as [He|Hne].
      + rewrite vp_cons, He. destruct (Qeq_bool (Qred (fst t + fst u)) 0) eqn:Hs.
        * assert (H : qq (fst t) + qq (fst u) = (0 : A)).
          { rewrite <- qq_add, <- qq_red. apply qq_zero, Hs. }
          transitivity ((qq (fst t) + qq (fst u)) * vm (snd u) + vp r); [rewrite H|]; ring.
        * rewrite vp_cons. cbn [fst snd]. rewrite qq_red, qq_add. ring.
      + destruct (mono_lt (snd u) (snd t)).
        * rewrite !vp_cons, IH. ring.
        * rewrite !vp_cons. ring.
  Qed.
  Lemma vp_padd p q : vp (padd p q) = vp p + vp q.
  Proof.
    unfold padd. induction p as [|t p IH]; cbn [fold_right]; [rewrite ?vp_nil; ring|].
    rewrite vp_pins, IH, vp_cons. ring.
  Qed.
  Lemma vp_pscale c p : vp (pscale c p) = qq c * vp p.
  Proof.
    unfold pscale. induction p as [|t p IH]; cbn [fold_right]; [rewrite ?vp_nil; ring|].
    rewrite vp_pins, IH, vp_cons. cbn [fst snd]. rewrite qq_red, qq_mul. ring.
  Qed.
  Lemma vp_pmulm c m p : vp (pmulm c m p) = qq c * vm m * vp p.
  Proof.
    unfold pmulm. induction p as [|t p IH]; cbn [fold_right]; [rewrite ?vp_nil; ring|].
    rewrite vp_pins, IH, vp_cons. cbn [fst snd]. rewrite qq_red, qq_mul, vm_mmul. ring.
  Qed.
  Lemma vp_pmul p q : vp (pmul p q) = vp p * vp q.
  Proof.
    unfold pmul. induction p as [|t p IH]; cbn [fold_right]; [rewrite ?vp_nil; ring|].
    rewrite vp_padd, vp_pmulm, IH, vp_cons. ring.
  Qed.
  Lemma vp_one : vp pone = 1.
  Proof. unfold pone. rewrite vp_cons, vp_nil. cbn [fst snd]. rewrite vm_nil, qq_1. ring. Qed.
  Lemma vp_1 m : vp [(1%Q, m)] = vm m.
  Proof. rewrite vp_cons, vp_nil. cbn [fst snd]. rewrite qq_1. ring. Qed.
  Lemma vp_patom a : vp (patom a) = va a.
  Proof. unfold patom. rewrite vp_1, vm_mins, vm_nil. ring. Qed.
  Lemma vp_pprod l : vp (pprod l) = fold_right (fun p s => vp p * s) 1 l.
  Proof.
    unfold pprod. induction l as [|p l IH]; cbn [fold_right]; [apply vp_one|].
    rewrite vp_pmul, IH. reflexivity.
  Qed.
  Lemma vp_psum l : vp (psum l) = fold_right (fun p s => vp p + s) 0 l.
  Proof.
    unfold psum. induction l as [|p l IH]; cbn [fold_right]; [reflexivity|].
    rewrite vp_padd, IH. reflexivity.
  Qed.
  (** replacing atoms by polynomials *)
  Lemma vp_replace (P : atom -> Prop) (h : atom -> poly) (v : atom -> A) p : pall P p ->
    (forall a, P a -> vp (h a) = v a) ->
    vp (psum (map (fun t => pscale (fst t) (pprod (map h (snd t)))) p))
    = fold_right (fun t s => qq (fst t) * fold_right (fun a s => v a * s) 1 (snd t) + s) 0 p.
  Proof.
    intros Hp H. rewrite vp_psum, fold_map. induction p as [|t p IH]; cbn [fold_right]; [reflexivity|].
    rewrite IH by exact (pall_tail _ _ _ Hp). f_equal.
    rewrite vp_pscale, vp_pprod, fold_map. f_equal. apply prod_map_sound.
    intros a Ha. apply H, (pall_head _ _ _ Hp), Ha.
  Qed.
End Val.
Lemma vp_ext {A : RAlg} (P : atom -> Prop) (v v' : atom -> A) p : pall P p -> (forall a, P a -> v a = v' a) -> vp v p = vp v' p.
Proof.
  intros Hp H. induction p as [|t p IH]; [reflexivity|]. rewrite !vp_cons, IH by exact (pall_tail _ _ _ Hp). do 2 f_equal.
  pose proof (pall_head _ _ _ Hp) as Hm. induction (snd t) as [|a m IHm]; [reflexivity|]. rewrite !vm_cons, IHm by (intros b Hb; apply Hm; right; exact Hb).
  f_equal. apply H, Hm. left. reflexivity.
Qed.

Notation none := (fun _ : fn => False).

(** *** words *)
Lemma wremove_other {A : RAlg} c d w w' : c <> d -> wremove c w = Some w' ->
  exists w'', wremove c (winsert d w) = Some w'' /\ forall a : A, dds w'' a = dd d (dds w' a).
Proof.
  intros Hne. revert w'. induction w as [|e w IH]; intros w' H; cbn [wremove] in H; [discriminate|]. cbn [winsert].
  destruct (string_lt e d) eqn:Hed; cbn [wremove].
  - destruct (string_dec c e) as [<-|Hce].
    + injection H as <-. exists (winsert d w). split; [reflexivity|]. intros a. apply winsert_sound.
    + destruct (wremove c w) as [r|]; [|discriminate]. injection H as <-. destruct (IH r eq_refl) as (w'' & -> & G).
      exists (e :: w''). split; [reflexivity|]. intros a. cbn [dds]. rewrite G. apply dd_comm.
  - destruct (string_dec c d); [contradiction|]. destruct (string_dec c e) as [<-|Hce].
    + injection H as <-. exists (d :: w). split; reflexivity.
    + destruct (wremove c w) as [r|]; [|discriminate]. injection H as <-. exists (d :: e :: r). split; reflexivity.
Qed.
Lemma wremove_none_other c d w : c <> d -> wremove c w = None -> wremove c (winsert d w) = None.
Proof.
  intros Hne H. apply wremove_none. intros K. apply winsert_in in K. destruct K as [K|K]; [congruence|].
  clear - H K. induction w as [|e w IH]; [destruct K|]. cbn [wremove] in H. destruct (string_dec c e) as [->|Hn]; [discriminate|].
  destruct K as [->|K]; [congruence|]. destruct (wremove c w); [discriminate|]. exact (IH eq_refl K).
Qed.

(** *** free time derivatives *)
Section Free.
  Context {A : RAlg} (E : env A).
  Add Ring A_ring8 : (c_th A).
  Open Scope ra_scope.
  Notation qq c := (cq (Q2Qc c)).
  Hypothesis HE : algebraic E.
  Hypothesis HA : averaged E.

  Definition vj (J : fn -> A) (f : fn) (w : word) : A :=
    if is_ext f then dds w (e_fn E f)
    else match wremove "t" w with Some w' => dds w' (J f) | None => dds w (e_fn E f) end.
  Definition vprod (J : fn -> A) (l : list jet) : A := fold_right (fun j p => vj J (fst j) (snd j) * p) 1 l.
  Definition va (J : fn -> A) (a : atom) : A :=
    match a with
    | AJet f w => vj J f w
    | AExp w l => dds w (EE (vprod J l))
    | ACst k => e_cst E k
    | ASmall => e_small E
    | ASig i => e_sig E i
    | AIsig i => e_isig E i
    end.
  Lemma va_inv J i : va J (ASig i) * va J (AIsig i) = 1.
  Proof. apply (al_isig _ HE). Qed.

  Section Fixed.
    Variable J : fn -> A.
    Notation v := (va J).
    (** the given derivatives are those of centred random functions and of deterministic ones *)
    Record admissible : Prop := {
      ad_det : forall f, is_random f = false -> is_ext f = false -> det (J f);
      ad_centred : forall f, is_random f = true -> EE (J f) = 0 }.
    Lemma vj_pjet f w : vp v (pjet f w) = vj J f w.
    Proof.
      assert (D : vp v [(1%Q, [AJet f w])] = vj J f w) by (rewrite vp_1, vm_cons, vm_nil; cbn [va]; ring).
      destruct f; try exact D; unfold pjet.
      - destruct w; [|exact D]. rewrite vp_1, !vm_cons, vm_nil. cbn [va vj is_ext wremove dds]. rewrite (al_var _ HE). ring.
      - destruct (forallb (fun c => lmem string_dec c deps) w) eqn:Hf; [exact D|].
        assert (exists c, In c w /\ ~ In c deps) as (c & Hc & Hn).
        { clear D. induction w as [|d r IH]; [discriminate|]. cbn [forallb] in Hf. apply andb_false_iff in Hf.
          destruct Hf as [Hf|Hf].
          - exists d. split; [left; reflexivity|]. intros Hd. unfold lmem in Hf.
            destruct (in_dec string_dec d deps); [discriminate|contradiction].
          - destruct (IH Hf) as (c & H1 & H2). exists c. split; [right; exact H1|exact H2]. }
        symmetry. cbn. apply (dds_zero_in w c); [exact Hc|]. apply (al_ext _ HE), Hn.
    Qed.
    Lemma vj_insert c f w : c <> "t" -> vj J f (winsert c w) = dd c (vj J f w).
    Proof.
      intros Hc. unfold vj. destruct (is_ext f); [apply winsert_sound|].
      destruct (wremove "t" w) as [w'|] eqn:Hw.
      - destruct (@wremove_other A "t" c w w' (fun e => Hc (eq_sym e)) Hw) as (w'' & -> & G). apply G.
      - rewrite wremove_none_other by (congruence || exact Hw). apply winsert_sound.
    Qed.
    Lemma va_datom c a : c <> "t" -> vp v (datom c a) = dd c (v a).
    Proof.
      intros Hc. destruct a; cbn [datom va].
      - rewrite vj_pjet. apply vj_insert, Hc.
      - rewrite vp_1, vm_cons, vm_nil. cbn [va]. rewrite winsert_sound. ring.
      - symmetry. apply (al_cst _ HE).
      - symmetry. apply (al_small _ HE).
      - rewrite vp_pmulm by apply va_inv. rewrite vj_pjet, (dd_sig E HE), vm_cons, vm_nil.
        change [c] with (winsert c []). rewrite vj_insert by exact Hc. cbn [va vj is_ext wremove dds]. ring.
      - rewrite vp_pmulm by apply va_inv. rewrite vj_pjet, (dd_isig E HE), (dd_sig E HE).
        change [c] with (winsert c []). rewrite vj_insert by exact Hc.
        change (-1 # 2)%Q with (- (1 # 2))%Q. rewrite qq_opp, !vm_cons, vm_nil. cbn [va vj is_ext wremove dds]. ring.
    Qed.
    Lemma vp_pderiv c p : c <> "t" -> vp v (pderiv c p) = dd c (vp v p).
    Proof.
      intros Hc. assert (M : forall m, vp v (dmono c m) = dd c (vm v m)).
      { induction m as [|a r IH]; cbn [dmono]; [cbn; symmetry; apply dd_1|].
        rewrite vp_padd, !vp_pmulm, va_datom, IH by (exact Hc || apply va_inv).
        rewrite !vm_cons, vm_nil, dd_mul, qq_1. ring. }
      unfold pderiv. induction p as [|t p IH]; cbn [fold_right].
      - symmetry. apply dd_0.
      - rewrite vp_padd, vp_pscale, M, IH, vp_cons, dd_add, dd_scal. reflexivity.
    Qed.
    Lemma vp_pderivs w p : ~ In "t" w -> vp v (pderivs w p) = dds w (vp v p).
    Proof.
      unfold pderivs. induction w as [|c w IH]; intros Hw; cbn [fold_right dds]; [reflexivity|].
      rewrite vp_pderiv, IH; [reflexivity|intros K; apply Hw; right; exact K|intros ->; apply Hw; left; reflexivity].
    Qed.
    Hypothesis HJ : admissible.
    Lemma vj_det f w : is_random f = false -> det (vj J f w).
    Proof.
      intros Hf. unfold vj. destruct (is_ext f) eqn:He; [apply det_dds, (ag_det _ HA), Hf|].
      destruct (wremove "t" w); apply det_dds; [apply (ad_det HJ); assumption|apply (ag_det _ HA), Hf].
    Qed.
    Lemma vj_centred f w : is_random f = true -> EE (vj J f w) = 0.
    Proof.
      intros Hf. unfold vj. destruct (is_ext f); [rewrite EE_dds, (ag_centred _ HA) by exact Hf; apply dds_0|].
      destruct (wremove "t" w); rewrite EE_dds; [rewrite (ad_centred HJ) by exact Hf|rewrite (ag_centred _ HA) by exact Hf]; apply dds_0.
    Qed.
    Lemma va_det a : (forall f w, a = AJet f w -> is_random f = false) -> det (v a).
    Proof.
      intros H. destruct a; cbn [va].
      - apply vj_det. eapply H; reflexivity.
      - apply det_dds, det_EE.
      - apply (ag_cst _ HA).
      - apply (ag_small _ HA).
      - apply (ag_sig _ HA).
      - apply (isig_det E HE HA).
    Qed.
    Lemma vp_expect p : vp v (expect p) = EE (vp v p).
    Proof.
      unfold expect. rewrite vp_psum, fold_map by apply va_inv. induction p as [|t p IH]; cbn [fold_right].
      - symmetry. apply EE_0.
      - rewrite IH, vp_cons, EE_add. f_equal. rewrite vp_pmulm by apply va_inv.
        assert (S : vm v (snd t) = vm v (det_part (snd t)) * vprod J (random_jets (snd t))).
        { induction (snd t) as [|a m IHm]; [cbn; ring|]. rewrite vm_cons, IHm. unfold det_part, random_jets. cbn [filter flat_map].
          destruct a; try (cbn [negb app]; rewrite vm_cons; ring).
          destruct (is_random f) eqn:Hr; cbn [negb app]; [|rewrite vm_cons; ring].
          change (vprod J ((f, w) :: ?l)) with (vj J f w * vprod J l). cbn [va]. ring. }
        assert (D : det (vm v (det_part (snd t)))).
        { generalize (snd t) as mm. intros mm. induction mm as [|a m IHm]; [apply det_1|]. unfold det_part. cbn [filter].
          destruct a; try (apply det_mul; [apply va_det; intros; discriminate|exact IHm]).
          destruct (is_random f) eqn:Hr; cbn [negb]; [exact IHm|].
          apply det_mul; [apply va_det; intros ? ? H; injection H as <- _; exact Hr|exact IHm]. }
        assert (X : vp v (expect_jets (random_jets (snd t))) = EE (vprod J (random_jets (snd t)))).
        { pose proof (random_jets_random (snd t)) as HR. destruct (random_jets (snd t)) as [|[f w] [|j l]]; cbn [expect_jets].
          - rewrite vp_one. cbn. symmetry. apply EE_1.
          - pose proof (HR (f, w) (or_introl eq_refl)) as Hf. cbn [fst] in Hf. rewrite vp_1, vm_cons, vm_nil. cbn [va vprod fold_right fst snd].
            replace (vj J f [] * 1) with (vj J f []) by ring. replace (vj J f w * 1) with (vj J f w) by ring.
            rewrite !vj_centred, dds_0 by exact Hf. ring.
          - rewrite vp_1, vm_cons, vm_nil. cbn [va dds]. ring. }
        rewrite X, S. rewrite (EE_det_l (qq (fst t))) by apply det_cq. rewrite (EE_det_l (vm v _)) by exact D. ring.
    Qed.

    (** what does not contain time derivatives has its ordinary value *)
    Variable coords : list string.
    Hypothesis Ht : ~ In "t" coords.
    Lemma vj_good f w : spatial coords w -> vj J f w = dds w (e_fn E f).
    Proof. intros H. unfold vj. destruct (is_ext f); [reflexivity|]. rewrite wremove_none by exact (good_t coords Ht w H). reflexivity. Qed.
    Lemma vp_T0 p : pall (timed coords none) p -> vp v p = pv E p.
    Proof.
      intros Hp. change (pv E p) with (vp (av E) p). apply (vp_ext (timed coords none)); [exact Hp|].
      intros [f w|w l|k| |i|i] Ha; cbn [va av]; try reflexivity.
      - destruct Ha as [Ha|[Ha|[[] _]]]; [unfold vj; rewrite Ha; reflexivity|apply vj_good, Ha].
      - destruct Ha as (_ & _ & [Ha|(h & w0 & r & _ & [] & _)]). do 2 f_equal.
        unfold vprod, jprod. apply prod_map_sound. intros j Hj. unfold jv. apply vj_good, Ha, Hj.
    Qed.
  End Fixed.

  Variable coords : list string.
  Hypothesis Ht : ~ In "t" coords.
  Notation T0 := (pall (timed coords none)).
  Definition upd (f : fn) (a : A) (J : fn -> A) : fn -> A := fun g => if fn_eq_dec g f then a else J g.
  Definition upds (d : list (fn * poly)) (J : fn -> A) : fn -> A := fold_right (fun kv J => upd (fst kv) (pv E (snd kv)) J) J d.
  Lemma vp_sub_trend J K f u p : admissible J -> is_ext f = false -> T0 u -> pall (timed coords K) p ->
    vp (va J) (sub_trend f u p) = vp (va (upd f (pv E u) J)) p.
  Proof.
    intros HJ Hf Hu Hp. unfold sub_trend, psubst. set (g := fun (f' : fn) (w : word) => _).
    assert (G : forall h w, is_ext h = true \/ spatial coords w \/ (K h /\ exists w0, spatial coords w0 /\ w = winsert "t" w0) ->
       vp (va J) (g h w) = vj (upd f (pv E u) J) h w).
    { intros h w H. unfold g. destruct (fn_eq_dec h f) as [->|Hne].
      - destruct H as [H|[H|(_ & w0 & H0 & ->)]]; [congruence| |].
        + rewrite wremove_none by exact (good_t coords Ht w H). rewrite vj_pjet. rewrite !(vj_good _ coords Ht) by exact H. reflexivity.
        + rewrite wremove_winsert by exact (good_t coords Ht w0 H0).
          rewrite vp_pderivs, (vp_T0 J coords Ht) by (exact Hu || exact (good_t coords Ht w0 H0)).
          unfold vj. rewrite Hf, wremove_winsert by exact (good_t coords Ht w0 H0). unfold upd. destruct (fn_eq_dec f f); [reflexivity|congruence].
      - rewrite vj_pjet. unfold vj, upd. destruct (fn_eq_dec h f); [contradiction|reflexivity]. }
    rewrite (vp_replace (va J) (va_inv J) (timed coords K) _ (va (upd f (pv E u) J))); [reflexivity|exact Hp|].
    intros [h w|w l|k| |i|i] Ha; cbn [asubst]; try (rewrite vp_patom by apply va_inv; reflexivity).
    - apply G, Ha.
    - destruct Ha as (H1 & H2 & H3). rewrite vp_pderivs, vp_expect, vp_pprod, fold_map by (assumption || apply va_inv || exact (good_t coords Ht w H1)).
      cbn [va]. do 2 f_equal. unfold vprod. apply prod_map_sound. intros j Hj. apply G.
      destruct H3 as [H3|(h & w0 & r & HP & Hh & H0 & Hr & H3)]; [right; left; apply H3, Hj|].
      apply (Permutation_in _ HP) in Hj. destruct Hj as [<-|Hj]; [|right; left; apply H3, Hj].
      right. right. cbn [fst snd]. split; [exact Hh|]. exists w0. auto.
  Qed.
  Lemma upd_admissible f a J : admissible J -> (is_random f = false -> det a) -> (is_random f = true -> EE a = 0) -> admissible (upd f a J).
  Proof.
    intros [H1 H2] H3 H4. split; intros g; unfold upd; destruct (fn_eq_dec g f) as [->|]; auto.
  Qed.
  Lemma upds_admissible d J : admissible J -> (forall f u, In (f, u) d -> (is_random f = false -> det (pv E u)) /\ (is_random f = true -> EE (pv E u) = 0)) ->
    admissible (upds d J).
  Proof.
    induction d as [|[f u] d IH]; intros HJ H; [exact HJ|]. cbn [upds fold_right]. destruct (H f u (or_introl eq_refl)) as [H1 H2].
    apply upd_admissible; [apply IH; [exact HJ|intros; apply H; right; assumption]|exact H1|exact H2].
  Qed.
  Lemma vp_sub_trends d : forall J K p, admissible J ->
    (forall f u, In (f, u) d -> is_ext f = false /\ T0 u /\ (is_random f = false -> det (pv E u)) /\ (is_random f = true -> EE (pv E u) = 0)) ->
    pall (timed coords K) p ->
    vp (va J) (sub_trends d p) = vp (va (upds d J)) p.
  Proof.
    induction d as [|[f u] d IH]; intros J K p HJ Hd Hp; [reflexivity|].
    destruct (Hd f u (or_introl eq_refl)) as (H1 & H2 & H3 & H4).
    assert (Hd' : forall f u, In (f, u) d -> is_ext f = false /\ T0 u /\ (is_random f = false -> det (pv E u)) /\ (is_random f = true -> EE (pv E u) = 0))
      by (intros; apply Hd; right; assumption).
    change (sub_trends ((f, u) :: d) p) with (sub_trends d (sub_trend f u p)).
    rewrite (IH J (fun g => K g /\ g <> f)) by (try exact HJ; try exact Hd'; apply (sub_trend_timed coords Ht); assumption).
    change (upds ((f, u) :: d) J) with (upd f (pv E u) (upds d J)).
    apply (vp_sub_trend _ K); [apply upds_admissible; [exact HJ|]|assumption..]. intros h x Hh. apply Hd' in Hh. tauto.
  Qed.
  (** the time derivative of a product of two atoms *)
  Lemma vp_trend_pair J x y : inverse x = None -> vp (va J) (pderiv "t" (pmul [(1%Q, [x])] [(1%Q, [y])]))
    = vp (va J) (datom "t" x) * va J y + va J x * vp (va J) (datom "t" y).
  Proof.
    intros Hx.
    assert (HM : exists m, pmul [(1%Q, [x])] [(1%Q, [y])] = [(1%Q, m)] /\ (m = [x; y] \/ m = [y; x])).
    { unfold pmul, pmulm, mmul. cbn [fold_right fst snd]. unfold mins. rewrite Hx. cbn [insert_atom].
      destruct (atom_lt y x); eexists; split; [reflexivity|auto|reflexivity|auto]. }
    assert (D : forall a b, vp (va J) (dmono "t" [a; b]) = vp (va J) (datom "t" a) * va J b + va J a * vp (va J) (datom "t" b)).
    { intros a b. cbn [dmono]. rewrite !vp_padd, !vp_pmulm, !vp_padd, !vp_pmulm by apply va_inv. rewrite !vm_cons, !vm_nil, vp_nil, qq_1. ring. }
    destruct HM as (m & -> & [->| ->]); unfold pderiv; cbn [fold_right fst snd]; rewrite vp_padd, vp_pscale, D, vp_nil, qq_1 by apply va_inv; ring.
  Qed.
End Free.
