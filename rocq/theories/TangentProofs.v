(** Proofs of C123: forecast_tl of a nonlinear model. *)
From Coq Require Import List Reals Lra Lia FunctionalExtensionality.
From Verif Require Import PyBase PyBaseFacts Scalars FieldFacts FDReal ForecastModel ForecastSpec ForecastProofs ForecastMore EnsembleProofs
  SchemesModel SchemesSpec SchemesProofs ModelProofs TangentSpec.
Import ListNotations.
Open Scope R_scope.

Section Jets.
  Context {I : Type}.
  Variable D : I -> Prop.
  (** a family of arrays: u + h p up to the second order in h *)
  Definition jet (U : R -> I -> R) (u p : I -> R) : Prop :=
    (exists P, 0 <= P /\ size D P p) /\
    exists C h0, 0 < h0 /\ 0 <= C /\ forall h, 0 <= h <= h0 -> apart D (C * h ^ 2) (U h) (fun i => u i + h * p i).

  Lemma jet_add U u p V v q : jet U u p -> jet V v q ->
    jet (fun h i => U h i + V h i) (fun i => u i + v i) (fun i => p i + q i).
  Proof.
    intros ((P & P0 & HP) & C & h0 & H0 & C0 & HU) ((Q & Q0 & HQ) & C' & h0' & H0' & C0' & HV). split.
    - exists (P + Q). split; [lra|]. intros i Hi. eapply Rle_trans; [apply Rabs_triang|]. specialize (HP i Hi). specialize (HQ i Hi). lra.
    - exists (C + C'), (Rmin h0 h0'). split; [apply Rmin_pos; lra|]. split; [lra|]. intros h [Hh1 Hh2] i Hi.
      pose proof (Rmin_l h0 h0'). pose proof (Rmin_r h0 h0').
      specialize (HU h ltac:(lra) i Hi). specialize (HV h ltac:(lra) i Hi).
      replace (U h i + V h i - (u i + v i + h * (p i + q i))) with ((U h i - (u i + h * p i)) + (V h i - (v i + h * q i))) by ring.
      eapply Rle_trans; [apply Rabs_triang|]. lra.
  Qed.
  Lemma jet_scale c U u p : jet U u p -> jet (fun h i => c * U h i) (fun i => c * u i) (fun i => c * p i).
  Proof.
    intros ((P & P0 & HP) & C & h0 & H0 & C0 & HU). pose proof (Rabs_pos c). split.
    - exists (Rabs c * P). split; [apply Rmult_le_pos; lra|]. intros i Hi. rewrite Rabs_mult. apply Rmult_le_compat_l; auto.
    - exists (Rabs c * C), h0. split; [exact H0|]. split; [apply Rmult_le_pos; lra|]. intros h Hh i Hi. specialize (HU h Hh i Hi).
      replace (c * U h i - (c * u i + h * (c * p i))) with (c * (U h i - (u i + h * p i))) by ring.
      rewrite Rabs_mult, Rmult_assoc. apply Rmult_le_compat_l; auto.
  Qed.
  Lemma jet_line u p P : size D P p -> jet (fun h i => u i + h * p i) u p.
  Proof.
    intros HP. split.
    - exists (Rmax 0 P). split; [apply Rmax_l|]. intros i Hi. eapply Rle_trans; [apply (HP i Hi)|apply Rmax_r].
    - exists 0, 1. split; [lra|]. split; [lra|]. intros h Hh i Hi. rewrite Rminus_diag_eq by ring. rewrite Rabs_R0. lra.
  Qed.

  Variables (f : R -> (I -> R) -> I -> R) (df : R -> (I -> R) -> (I -> R) -> I -> R).
  Hypothesis T : tangent D f df.
  Lemma jet_trend t U u p : jet U u p -> jet (fun h => f t (U h)) (f t u) (df t u p).
  Proof.
    intros ((P & P0 & HP) & C & h0 & H0 & C0 & HU).
    destruct (tg_taylor _ _ _ T t u) as (A & r & Pr & HA). destruct (tg_bounded _ _ _ T t u) as (B & HB).
    set (N := P + C * h0). assert (N0 : 0 <= N) by (unfold N; nra).
    split.
    - exists (Rabs (B * P)). split; [apply Rabs_pos|]. intros i Hi. eapply Rle_trans; [apply (HB p P HP i Hi)|apply Rle_abs].
    - exists (Rabs A * N ^ 2 + Rabs (B * C)), (Rmin h0 (r / (N + 1))).
      assert (0 < r / (N + 1)) by (apply Rdiv_lt_0_compat; lra).
      split; [apply Rmin_pos; lra|]. pose proof (Rabs_pos A). pose proof (Rabs_pos (B * C)).
      split; [nra|]. intros h [Hh1 Hh2] i Hi. pose proof (Rmin_l h0 (r / (N + 1))). pose proof (Rmin_r h0 (r / (N + 1))).
      set (q := fun j => U h j - u j).
      assert (HU' := HU h ltac:(lra)).
      assert (Sq : size D (N * h) q).
      { intros j Hj. unfold q. replace (U h j - u j) with ((U h j - (u j + h * p j)) + h * p j) by ring.
        eapply Rle_trans; [apply Rabs_triang|]. rewrite Rabs_mult, (Rabs_pos_eq h) by lra.
        specialize (HU' j Hj). specialize (HP j Hj). unfold N. assert (X1 : 0 <= C * h) by (apply Rmult_le_pos; lra).
        assert (X2 : C * h * h <= C * h * h0) by (apply Rmult_le_compat_l; lra). assert (X3 : h * Rabs (p j) <= h * P) by (apply Rmult_le_compat_l; lra).
        replace (C * h ^ 2) with (C * h * h) in HU' by ring. lra. }
      assert (Nr : N * h <= r).
      { assert (h * (N + 1) <= r) by (apply (Rmult_le_reg_r (/ (N + 1))); [apply Rinv_0_lt_compat; lra|]; rewrite Rmult_assoc, Rinv_r by lra; unfold Rdiv in *; lra). nra. }
      assert (E1 := HA q (N * h) Nr Sq i Hi).
      assert (EU : (fun j => u j + q j) = U h) by (apply functional_extensionality; intros j; unfold q; ring). rewrite EU in E1.
      set (e := fun j => q j + (- h) * p j).
      assert (Se : size D (C * h ^ 2) e).
      { intros j Hj. unfold e, q. replace (U h j - u j + - h * p j) with (U h j - (u j + h * p j)) by ring. apply HU'; exact Hj. }
      assert (E2 := HB e _ Se i Hi).
      assert (E3 : df t u q i = df t u e i + h * df t u p i).
      { rewrite <- (tg_linear _ _ _ T t u h e p i Hi). apply (f_equal (fun z => df t u z i)). apply functional_extensionality; intros j; unfold e; ring. }
      replace (f t (U h) i - (f t u i + h * df t u p i)) with ((f t (U h) i - (f t u i + df t u q i)) + df t u e i) by (rewrite E3; ring).
      eapply Rle_trans; [apply Rabs_triang|].
      assert (A * (N * h) ^ 2 <= Rabs A * N ^ 2 * h ^ 2).
      { replace (A * (N * h) ^ 2) with (A * (N ^ 2 * h ^ 2)) by ring. rewrite Rmult_assoc. apply Rmult_le_compat_r; [|apply Rle_abs]. apply Rmult_le_pos; apply pow2_ge_0. }
      assert (B * (C * h ^ 2) <= Rabs (B * C) * h ^ 2).
      { rewrite <- Rmult_assoc. apply Rmult_le_compat_r; [apply pow2_ge_0|apply Rle_abs]. }
      lra.
  Qed.

  (** one step *)
  Definition lpart (z : I + I -> R) (i : I) : R := z (inl i).
  Definition rpart (z : I + I -> R) (i : I) : R := z (inr i).
  Definition out {A} (d : A) (r : res A) : A := match r with Ok a => a | Err _ => d end.
  Definition family s (t : R) (U : R -> I -> R) (d : R) : R -> I -> R := fun h => out (U h) (@onestep_fun RF I s (@pure RF I f) t (U h) d).
  Lemma family_ok s t U d h : @onestep_fun RF I s (@pure RF I f) t (U h) d = Ok (family s t U d h).
  Proof. destruct s; reflexivity. Qed.
  Lemma jet_axpy c U u p V v q : jet U u p -> jet V v q ->
    jet (fun h => @vadd RF I (U h) (@vscale RF I c (V h))) (@vadd RF I u (@vscale RF I c v)) (@vadd RF I p (@vscale RF I c q)).
  Proof. intros J K. exact (jet_add _ _ _ _ _ _ J (jet_scale c _ _ _ K)). Qed.
  Lemma step_jet s t U z d : jet U (lpart z) (rpart z) ->
    exists z', @onestep_fun RF (I + I) s (tangent_trend f df) t z d = Ok z' /\ jet (family s t U d) (lpart z') (rpart z').
  Proof.
    intros J. destruct s.
    - eexists. split; [reflexivity|].
      exact (jet_axpy d _ _ _ _ _ _ J (jet_trend t _ _ _ J)).
    - eexists. split; [reflexivity|].
      pose proof (jet_axpy (@fmul RF d half) _ _ _ _ _ _ J (jet_trend t _ _ _ J)) as J1.
      exact (jet_axpy d _ _ _ _ _ _ J (jet_trend (@fadd RF t (@fmul RF half d)) _ _ _ J1)).
    - eexists. split; [reflexivity|].
      pose proof (jet_trend t _ _ _ J) as K1.
      pose proof (jet_axpy (@fmul RF d half) _ _ _ _ _ _ J K1) as J1.
      pose proof (jet_trend (@fadd RF t (@fmul RF d half)) _ _ _ J1) as K2.
      pose proof (jet_axpy (@fmul RF d half) _ _ _ _ _ _ J K2) as J2.
      pose proof (jet_trend (@fadd RF t (@fmul RF d half)) _ _ _ J2) as K3.
      pose proof (jet_axpy d _ _ _ _ _ _ J K3) as J3.
      pose proof (jet_trend (@fadd RF t d) _ _ _ J3) as K4.
      pose proof (jet_add _ _ _ _ _ _ (jet_axpy (@fnat RF 2) _ _ _ _ _ _ (jet_axpy (@fnat RF 2) _ _ _ _ _ _ K1 K2) K3) K4) as Q.
      exact (jet_axpy (@fdiv RF d (@fnat RF 6)) _ _ _ _ _ _ J Q).
  Qed.
End Jets.

(** ** forecast_tl of any model *)
Section Values.
  Context {I : Type}.
  Notation fcast s f := (forecast Req_EM_T Rminus (@onestep_fun RF I s) (@pure RF I f)).
  Lemma forecast_tl_values s (f : R -> (I -> R) -> I -> R) (h : R) ens w (state : I -> R) perts sv l :
    pool_ens Req_EM_T Rminus (@onestep_fun RF I s) (@pure RF I f) ens ->
    w <> [] -> saved_list w sv = Some l -> NoDup l ->
    exists fc tl,
      forecast_tl Req_EM_T Rminus (@onestep_fun RF I s) (@pure RF I f) (@tl_pert RF I h) (@tl_quot RF I h) ens w state perts sv
        = Ok (fc, tl)
      /\ fcast s f w state sv = Ok fc
      /\ dkeys tl = l
      /\ (forall t, In t l -> In t w ->
            exists vs a, dget Req_EM_T t tl = Some vs /\ dget Req_EM_T t fc = Some a
              /\ Forall2 (fun p v => exists d b, fcast s f w (@tl_pert RF I h state p) sv = Ok d
                                               /\ dget Req_EM_T t d = Some b /\ v = @tl_quot RF I h b a) perts vs)
      /\ (forall t, In t l -> ~ In t w -> dget Req_EM_T t tl = Some []).
  Proof.
    intros Hens Hw Hl Hnd.
    assert (Hs : sv <> SOther) by (intros ->; discriminate).
    assert (Heq : forall (u : I -> R), fcast s f w u (SIter l) = fcast s f w u sv).
    { intros u. rewrite (forecast_fw _ _ _ _ w u sv l Hl). apply forecast_fw. reflexivity. }
    unfold forecast_tl. rewrite (check_iter _ _ _ Hl). rewrite Heq.
    destruct (forecast_total Req_EM_T Rminus (@onestep_fun RF I s) (@pure RF I f) (pure_total RF s f) w state sv Hw Hs)
      as [fc Hfc]. rewrite Hfc. cbn [bind].
    set (sts := map (@tl_pert RF I h state) perts).
    pose proof (ensemble_seq_spec Req_EM_T Rminus (@onestep_fun RF I s) (@pure RF I f) w sts (SIter l) l eq_refl) as HE.
    assert (Hm : exists fcs, mapM (fun st => fcast s f w st (SIter l)) sts = Ok fcs).
    { clear - Hw Hs. induction sts as [|x r [fcs IH]]; [exists []; reflexivity|].
      destruct (forecast_total Req_EM_T Rminus (@onestep_fun RF I s) (@pure RF I f) (pure_total RF s f) w x (SIter l) Hw
          ltac:(discriminate)) as [d Hd].
      exists (d :: fcs). simpl. rewrite Hd. simpl. rewrite IH. reflexivity. }
    destruct Hm as [fcs Hfcs]. rewrite Hfcs in HE. destruct HE as (d & Ed & Kd & Gd).
    rewrite (pool_ens_Ok _ _ _ _ ens w sts (SIter l) d Hens Ed). cbn [bind].
    assert (Hcol : forall t, ~ In t w -> column Req_EM_T t fcs = []).
    { intros t Ht. eapply column_notin; eauto. }
    destruct (tl_loop Req_EM_T (@tl_quot RF I h) fc l d Hnd) as (tl & Etl & Ktl & G1 & _).
    - intros q Hq. exists (column Req_EM_T q fcs). split; [auto|].
      destruct (in_dec Req_EM_T q w) as [Hin|Hin]; [right|left; auto].
      eapply forecast_get; eauto. apply (saved_list_spec _ _ _ q Hl). auto.
    - exists fc, tl. rewrite Etl. cbn [bind]. split; [reflexivity|]. split; [reflexivity|].
      split; [rewrite Ktl, Kd; apply firsts_NoDup_id; auto|]. split.
      + intros t Ht Hin. pose proof (G1 t _ Ht (Gd t Ht)) as G.
        destruct (forecast_get Req_EM_T Rminus (@onestep_fun RF I s) (@pure RF I f) w state sv fc t Hfc) as [a Hav]; auto.
        { apply (saved_list_spec _ _ _ t Hl). auto. }
        rewrite Hav in G. eexists. exists a. split; [exact G|]. split; [exact Hav|].
        clear - Hw Hs Hl Hfcs Hin Ht Heq. subst sts. revert fcs Hfcs.
        induction perts as [|p r IH]; intros fcs Hfcs.
        * simpl in Hfcs. inversion Hfcs; subst. constructor.
        * simpl map in Hfcs. cbn [mapM] in Hfcs. rewrite Heq in Hfcs.
          destruct (forecast_total Req_EM_T Rminus (@onestep_fun RF I s) (@pure RF I f) (pure_total RF s f) w (@tl_pert RF I h state p) sv Hw Hs)
            as [dp Hdp].
          destruct (forecast_get Req_EM_T Rminus (@onestep_fun RF I s) (@pure RF I f) w (@tl_pert RF I h state p) sv dp t Hdp) as [b Hb]; auto.
          { apply (saved_list_spec _ _ _ t Hl). auto. }
          rewrite Hdp in Hfcs. cbn [bind] in Hfcs.
          destruct (mapM _ (map (@tl_pert RF I h state) r)) as [fcs'|] eqn:Em; [|discriminate].
          cbn [bind] in Hfcs. inversion Hfcs; subst fcs. simpl. rewrite Hb. simpl.
          constructor; [|apply IH; auto].
          exists dp, b. auto.
      + intros t Ht Hin. rewrite (G1 t _ Ht (Gd t Ht)). rewrite (Hcol t Hin).
        destruct (dget Req_EM_T t fc); reflexivity.
  Qed.
End Values.

(** ** convergence *)
Lemma uniform {X} (Q : X -> R -> R -> Prop) (xs : list X) :
  (forall x C h0 C' h0', C <= C' -> h0' <= h0 -> Q x C h0 -> Q x C' h0') ->
  (forall x, In x xs -> exists C h0, 0 < h0 /\ Q x C h0) -> exists C h0, 0 < h0 /\ forall x, In x xs -> Q x C h0.
Proof.
  intros Mono. induction xs as [|x xs IH]; intros H; [exists 0, 1; split; [lra|intros x []]|].
  destruct (H x (or_introl eq_refl)) as (C & h0 & P0 & H0). destruct IH as (C' & h0' & P1 & H1); [intros y Hy; apply H; right; exact Hy|].
  exists (Rmax C C'), (Rmin h0 h0'). split; [apply Rmin_pos; auto|]. intros y [<-|Hy].
  - apply (Mono x C h0); auto using Rmax_l, Rmin_l.
  - apply (Mono y C' h0'); auto using Rmax_r, Rmin_r.
Qed.
Lemma dget_rel {T S1 S2} (teq : forall a b : T, {a = b} + {a <> b}) (Rl : S1 -> S2 -> Prop) d1 d2 : Forall2 (entry_rel Rl) d1 d2 ->
  forall t x, dget teq t d1 = Some x -> exists y, dget teq t d2 = Some y /\ Rl x y.
Proof.
  induction 1 as [|[a b] [a' b'] d1 d2 [E1 E2] H IH]; intros t x G; [discriminate|]. cbn in *. subst a'.
  destruct (teq t a); [injection G as <-; exists b'; auto|auto].
Qed.

Section Main.
  Context {I : Type}.
  Variable D : I -> Prop.
  Variables (f : R -> (I -> R) -> I -> R) (df : R -> (I -> R) -> (I -> R) -> I -> R).
  Hypothesis TG : tangent D f df.
  Variable s : onestep.
  Variables (w : list R) (sv : saved R).
  Hypothesis Hw : w <> [].
  Hypothesis Hs : sv <> SOther.
  Notation fcast := (forecast Req_EM_T Rminus (@onestep_fun RF I s) (@pure RF I f)).
  Notation tcast := (forecast Req_EM_T Rminus (@onestep_fun RF (I + I) s) (tangent_trend f df)).

  Lemma left_step t z d : exists z', @onestep_fun RF (I + I) s (tangent_trend f df) t z d = Ok z' /\
    @onestep_fun RF I s (@pure RF I f) t (lpart z) d = Ok (lpart z').
  Proof. destruct s; eexists; split; reflexivity. Qed.

  Lemma pair_converges state p t : (exists P, size D P p) -> In t w -> is_saved w sv t -> exists C h0, 0 < h0 /\ forall h, 0 < h <= h0 ->
    exists d fc dz b a z, fcast w (@tl_pert RF I h state p) sv = Ok d /\ dget Req_EM_T t d = Some b /\
      fcast w state sv = Ok fc /\ dget Req_EM_T t fc = Some a /\ tcast w (both state p) sv = Ok dz /\ dget Req_EM_T t dz = Some z /\
      apart D (C * h) (@tl_quot RF I h b a) (fun i => z (inr i)).
  Proof.
    intros (P & HP) Ht Hv.
    destruct (forecast_total Req_EM_T Rminus (fun (_ : unit) t U d => Ok (family f s t U d)) tt
      ltac:(intros; eexists; reflexivity) w (fun h i => state i + h * p i) sv Hw Hs) as (dF & EF).
    destruct (forecast_get Req_EM_T Rminus _ tt w _ sv dF t EF Hv Ht) as (U & GU).
    (* the tangent *)
    pose proof (forecast_sim Req_EM_T Rminus (fun (_ : unit) t U d => Ok (family f s t U d)) tt (@onestep_fun RF (I + I) s) (tangent_trend f df)
      (fun U z => jet D U (lpart z) (rpart z))) as S1.
    specialize (S1 ltac:(intros t' U' z' d' J; destruct (step_jet D f df TG s t' U' z' d' J) as (z'' & E & J'); rewrite E; exact J')
      w sv (fun h i => state i + h * p i) (both state p) (jet_line D state p P HP)).
    rewrite EF in S1. destruct (tcast w (both state p) sv) as [dz|] eqn:EZ; [|destruct S1]. cbn in S1.
    destruct (dget_rel Req_EM_T _ _ _ S1 t U GU) as (z & GZ & ((Q & Q0 & HQ) & C & h0 & H0 & C0 & HU)).
    (* the unperturbed forecast *)
    pose proof (forecast_sim Req_EM_T Rminus (@onestep_fun RF (I + I) s) (tangent_trend f df) (@onestep_fun RF I s) (@pure RF I f)
      (fun z a => a = lpart z)) as S2.
    specialize (S2 ltac:(intros t' z' a' d' ->; destruct (left_step t' z' d') as (z'' & E & E'); rewrite E, E'; reflexivity) w sv (both state p) state eq_refl).
    rewrite EZ in S2. destruct (fcast w state sv) as [fc|] eqn:EC; [|destruct S2]. cbn in S2.
    destruct (dget_rel Req_EM_T _ _ _ S2 t z GZ) as (a & GA & Ea).
    exists C, h0. split; [exact H0|]. intros h Hh.
    (* the perturbed forecast *)
    pose proof (forecast_sim Req_EM_T Rminus (fun (_ : unit) t U d => Ok (family f s t U d)) tt (@onestep_fun RF I s) (@pure RF I f)
      (fun U b => b = U h)) as S3.
    specialize (S3 ltac:(intros t' U' b' d' ->; rewrite family_ok; reflexivity) w sv (fun h i => state i + h * p i) (@tl_pert RF I h state p) eq_refl).
    rewrite EF in S3. destruct (fcast w (@tl_pert RF I h state p) sv) as [d|] eqn:ED; [|destruct S3]. cbn in S3.
    destruct (dget_rel Req_EM_T _ _ _ S3 t U GU) as (b & GB & Eb).
    exists d, fc, dz, b, a, z. repeat (split; [solve [auto]|]).
    intros i Hi. specialize (HU h ltac:(lra) i Hi). subst a b.
    change (Rabs ((U h i - lpart z i) / h - rpart z i) <= C * h).
    replace ((U h i - lpart z i) / h - rpart z i) with ((U h i - (lpart z i + h * rpart z i)) / h) by (field; lra).
    unfold Rdiv. rewrite Rabs_mult, (Rabs_pos_eq (/ h)) by (left; apply Rinv_0_lt_compat; lra).
    apply (Rmult_le_reg_r h); [lra|]. rewrite Rmult_assoc, Rinv_l by lra. lra.
  Qed.

  Lemma tl_converges state perts l : saved_list w sv = Some l -> NoDup l -> (forall p, In p perts -> exists P, size D P p) ->
    exists C h0, 0 < h0 /\ forall h ens, 0 < h <= h0 ->
      pool_ens Req_EM_T Rminus (@onestep_fun RF I s) (@pure RF I f) ens ->
      exists fc tl,
        forecast_tl Req_EM_T Rminus (@onestep_fun RF I s) (@pure RF I f)
          (fun st p => @vadd RF I st (@vscale RF I h p)) (fun a b => @vdiv RF I (@vsub RF I a b) h) ens w state perts sv = Ok (fc, tl) /\
        fcast w state sv = Ok fc /\ dkeys tl = l /\
        (forall t, In t l -> In t w -> exists vs, dget Req_EM_T t tl = Some vs /\
           Forall2 (fun p v => exists d z, tcast w (both state p) sv = Ok d /\ dget Req_EM_T t d = Some z /\
             apart D (C * h) v (fun i => z (inr i))) perts vs) /\
        (forall t, In t l -> ~ In t w -> dget Req_EM_T t tl = Some []).
  Proof.
    intros Hl ND HP.
    destruct (uniform (fun (x : (I -> R) * R) C h0 => In (snd x) w -> forall h, 0 < h <= h0 ->
      exists d fc dz b a z, fcast w (@tl_pert RF I h state (fst x)) sv = Ok d /\ dget Req_EM_T (snd x) d = Some b /\
      fcast w state sv = Ok fc /\ dget Req_EM_T (snd x) fc = Some a /\ tcast w (both state (fst x)) sv = Ok dz /\ dget Req_EM_T (snd x) dz = Some z /\
      apart D (C * h) (@tl_quot RF I h b a) (fun i => z (inr i))) (list_prod perts l)) as (C & h0 & H0 & HC).
    - intros [p t] C h0 C' h0' HC Hh H Hin h Hh'. destruct (H Hin h ltac:(lra)) as (d & fc & dz & b & a & z & E1 & E2 & E3 & E4 & E5 & E6 & A).
      exists d, fc, dz, b, a, z. repeat (split; [assumption|]). intros i Hi. specialize (A i Hi). assert (C * h <= C' * h) by (apply Rmult_le_compat_r; lra). lra.
    - intros [p t] Hx. apply in_prod_iff in Hx as [Hp Ht].
      destruct (in_dec Req_EM_T t w) as [Hin|Hin].
      + destruct (pair_converges state p t (HP p Hp) Hin) as (C & h0 & H0 & H); [apply (saved_list_spec _ _ _ t Hl); exact Ht|].
        exists C, h0. split; [exact H0|]. intros _. exact H.
      + exists 0, 1. split; [lra|]. intros Q. contradiction.
    - exists C, h0. split; [exact H0|]. intros h ens Hh Hens.
      destruct (forecast_tl_values s f h ens w state perts sv l Hens Hw Hl ND) as (fc & tl & E & Efc & K & V & N).
      exists fc, tl. split; [exact E|]. split; [exact Efc|]. split; [exact K|]. split; [|exact N].
      intros t Ht Hin. destruct (V t Ht Hin) as (vs & a & Gv & Ga & F2). exists vs. split; [exact Gv|].
      assert (HC' : forall p, In p perts -> _) by (intros p Hp; exact (HC (p, t) (in_prod perts l p t Hp Ht) Hin h Hh)).
      clear - F2 HC' Ga Efc. induction F2 as [|p v ps vs (d & b & Ed & Gb & ->) F2 IH]; constructor.
      + destruct (HC' p (or_introl eq_refl)) as (d' & fc' & dz & b' & a' & z & E1 & E2 & E3 & E4 & E5 & E6 & A).
        cbn [fst snd] in *. exists dz, z. split; [exact E5|]. split; [exact E6|].
        rewrite Ed in E1. injection E1 as <-. rewrite Gb in E2. injection E2 as <-. rewrite Efc in E3. injection E3 as <-. rewrite Ga in E4. injection E4 as <-.
        exact A.
      + apply IH. intros q Hq. apply HC'. right. exact Hq.
  Qed.
End Main.
