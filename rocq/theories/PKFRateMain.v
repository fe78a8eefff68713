(** The closed systems: right-hand sides and rates of change; independence from the iteration orders. *)
From Coq Require Import List Arith Ring ZArith QArith Qcanon Bool String Permutation Lia.
From Verif Require Import PyBase PyBaseFacts PartialOrderModel TreeModel Reynolds PKFModel PKFSpec PKFAlg PKFAtoms PKFTaylor PKFClosure
  PKFProofs PKFTensor PKFInv PKFShape PKFMore PKFMain PKFWords PKFTime PKFTimeSpec PKFExplicit PKFVal PKFRateSpec PKFRateProofs.
Import ListNotations.
Close Scope Q_scope.
Close Scope Qc_scope.
Close Scope Z_scope.
Open Scope nat_scope.
Open Scope string_scope.
Open Scope list_scope.

Section Closed.
  Context {A : RAlg} (E : env A).
  Add Ring A_ring10 : (c_th A).
  Open Scope ra_scope.
  Notation qq c := (cq (Q2Qc c)).
  Variables (enum : list mi -> list mi) (enumD : tdict -> tdict) (enumC : edict -> edict)
    (enumF : list (fn * poly) -> list (fn * poly)) (enumU : list fn -> list fn).
  Variables (coords : list string) (eqs : list poly).
  Hypothesis Henum : forall l, Permutation (enum l) l.
  Hypothesis HenumD : forall l, Permutation (enumD l) l.
  Hypothesis HenumC : forall l, Permutation (enumC l) l.
  Hypothesis HenumF : forall l, Permutation (enumF l) l.
  Hypothesis HenumU : forall l, Permutation (enumU l) l.
  Hypothesis Hcoords : NoDup coords.
  Hypothesis Hne : coords <> [].
  Hypothesis Ht : ~ In "t" coords.
  Hypothesis HU : user_system eqs.
  Notation n := (List.length eqs).
  Notation T0 := (pall (timed coords none)).
  Hypothesis HW : forall p, In p eqs -> T0 p.
  Hypothesis HS : statistics coords n E.
  Variable closure : edict.
  Hypothesis HCt : forall l v, In (l, v) closure -> T0 v.
  Hypothesis HC : closure_holds E closure.

  Let HE : algebraic E := st_algebraic E coords _ HS.
  Let HA : averaged E := st_averaged E coords _ HS.
  Notation R := (rate E coords eqs).
  Notation td := time_derivative.

  (** right-hand sides with the values of the rates of change of [fs] *)
  Definition moves (s : list pequation) (fs : list fn) : Prop :=
    Forall2 (fun q f => pv E (snd q) = R f) s fs.
  Lemma moves_of s fs : map fst s = map td fs -> instantaneous E coords eqs s -> moves s fs.
  Proof.
    intros H1 H2. unfold moves. revert fs H1. induction s as [|[l r] s IH]; intros [|f fs] H1; try discriminate; constructor.
    - cbn [map fst] in H1. injection H1 as -> _. destruct (H2 _ _ (or_introl eq_refl)) as (g & Hg & H). injection Hg as ->. exact H.
    - apply IH; [intros l' r' H; apply H2; right; exact H|]. cbn [map fst] in H1. injection H1 as _ H1. exact H1.
  Qed.
  Lemma of_moves s fs : map fst s = map td fs -> moves s fs -> instantaneous E coords eqs s.
  Proof.
    intros H1 H2. revert H1. induction H2 as [|[l r] f s fs Hq _ IH]; intros H1 l' r' Hin; [destruct Hin|].
    cbn [map fst] in H1. injection H1 as -> H1. destruct Hin as [Hin|Hin]; [injection Hin as <- <-; exists f; split; [reflexivity|exact Hq]|exact (IH H1 l' r' Hin)].
  Qed.
  Lemma moves_values s fs : moves s fs -> map (fun q => pv E (snd q)) s = map R fs.
  Proof. induction 1; cbn [map]; congruence. Qed.
  Lemma moves_map g h s fs : (forall p, pv E (g p) = pv E p) -> (forall f, R (h f) = R f) -> moves s fs -> moves (map (on_eq g) s) (map h fs).
  Proof. intros Hg Hh H. induction H as [|q f s fs Hq _ IH]; cbn [map]; constructor; [|exact IH]. cbn [on_eq snd]. rewrite Hg, Hh. exact Hq. Qed.
  Lemma moves_app s fs s' fs' : moves s fs -> moves s' fs' -> moves (s ++ s') (fs ++ fs').
  Proof. apply Forall2_app. Qed.

  Lemma sub_closure_value p : pv E (sub_exps (enumC closure) p) = pv E p.
  Proof. apply (sub_exps_sound E HE), (closure_enum E enumC HenumC), HC. Qed.
  Lemma closure_moves s fs : moves s fs -> moves (apply_closure enumC closure s) fs.
  Proof.
    intros H. unfold apply_closure. destruct closure as [|kv r] eqn:Hc; [exact H|]. rewrite <- Hc in *.
    rewrite <- (map_id fs). apply (moves_map _ (fun f => f)); [exact sub_closure_value|reflexivity|exact H].
  Qed.
  Lemma unmean_rate f : R (unmean f) = R f.
  Proof. destruct f; reflexivity. Qed.
  Lemma clean_moves s fs : moves s fs -> moves (clean enumF eqs s) (map unmean fs).
  Proof.
    apply moves_map; [|exact unmean_rate]. intros p. apply (sub_fns_sound E HE HA). intros f v Hin. apply (Permutation_in _ (HenumF _)) in Hin.
    apply in_map_iff in Hin. destruct Hin as (i & H & _). apply pair_inj in H. destruct H as [<- <-].
    rewrite pfn_sound by exact HE. symmetry. apply (st_mean _ _ _ HS).
  Qed.
  Notation mets f := (map (fun iab => f (fst iab) (fst (snd iab)) (snd (snd iab))) (metric_indices coords eqs)).
  Notation covs := (map (fun ij => FCov (fst ij) (snd ij)) (couples eqs)).
  Lemma expectation_moves e : expectation_system enum enumC enumF coords eqs = Ok e -> moves e (map FMean (fields eqs)).
  Proof.
    intros He. destruct (expectation_ok enum enumC enumF no_tensor coords eqs) as (s & Hs & Hl & _); auto.
    rewrite He in Hs. apply Ok_inj in Hs. subst s. apply moves_of; [exact Hl|]. eapply expectation_rates; eassumption.
  Qed.
  Lemma variance_moves e : variance_system enum enumD enumC enumF enumU coords eqs = Ok e -> moves e (map FVar (fields eqs)).
  Proof.
    intros He. destruct (variance_ok enum enumD enumC enumF enumU no_tensor coords eqs) as (s & Hs & Hl & _); auto.
    rewrite He in Hs. apply Ok_inj in Hs. subst s. apply moves_of; [exact Hl|]. eapply variance_rates; try exact He; assumption.
  Qed.
  Lemma covariance_moves e : cross_covariance_system enum enumD enumC enumF enumU coords eqs = Ok e -> moves (optional e) covs.
  Proof.
    intros He. destruct (covariance_ok enum enumD enumC enumF enumU no_tensor coords eqs) as (s & Hs & (Hl & _) & _); auto.
    rewrite He in Hs. apply Ok_inj in Hs. subst s. apply moves_of; [exact Hl|]. eapply covariance_rates; try exact He; assumption.
  Qed.
  Lemma metric_lhs_td m : metric_system enum enumD enumC enumF enumU coords eqs = Ok m -> map fst m = map td (mets FMet).
  Proof.
    intros He. destruct (metric_ok enum enumD enumC enumF enumU no_tensor coords eqs) as (s & Hs & Hl & _); auto.
    rewrite He in Hs. apply Ok_inj in Hs. subst s. exact Hl.
  Qed.
  Lemma metric_moves e : metric_system enum enumD enumC enumF enumU coords eqs = Ok e -> moves e (mets FMet).
  Proof. intros He. apply moves_of; [exact (metric_lhs_td e He)|]. eapply metric_rates; try exact He; assumption. Qed.

  Lemma in_metric_moves s : in_metric enum enumD enumC enumF enumU coords eqs closure = Ok s ->
    moves s (described_list coords eqs true FMet).
  Proof.
    unfold in_metric. intros H. ok H e He. ok H v Hv. ok H c Hc. ok H m Hm. apply Ok_inj in H. subst s.
    apply expectation_moves, closure_moves, clean_moves in He. apply variance_moves, closure_moves, clean_moves in Hv.
    apply covariance_moves, closure_moves, clean_moves in Hc. apply metric_moves, closure_moves, clean_moves in Hm.
    rewrite !map_map in *. unfold described_list. repeat apply moves_app; assumption.
  Qed.

  Section Tensor.
    Variables (tensor inv : nat -> nat -> nat -> fn) (scale factor : Q).
    Hypothesis HT : tensor_is coords n E tensor inv scale.
    Hypothesis Hk : forall i a b, is_ext (tensor i a b) = false.
    Hypothesis Hr : forall i a b, R (tensor i a b) = tensor_rate E coords eqs tensor factor i a b.
    Hypothesis Hu : forall i a b, unmean (tensor i a b) = tensor i a b.

    Lemma metric_rate_sym i a b : metric_rate E coords eqs i a b = metric_rate E coords eqs i b a.
    Proof. unfold metric_rate. f_equal. ring. Qed.
    Lemma metric_fn i a b : exists c d, metric i a b = FMet i c d /\ metric_rate E coords eqs i c d = metric_rate E coords eqs i a b
      /\ (a < dim coords -> b < dim coords -> c <= d /\ d < dim coords)%nat.
    Proof.
      unfold metric. destruct (Nat.ltb_spec b a); [exists b, a|exists a, b]; (split; [reflexivity|]); (split; [|lia]); [apply metric_rate_sym|reflexivity].
    Qed.
    Lemma vp_asum J l : vp (va E J) (psum l) = asum (map (vp (va E J)) l).
    Proof.
      rewrite vp_psum by apply (va_inv E HE). induction l as [|p l IH]; [reflexivity|]. cbn [fold_right map]. rewrite asum_cons, IH. reflexivity.
    Qed.
    Lemma vp_fn J f : is_ext f = false -> vp (va E J) (pfn f) = e_fn E f.
    Proof. intros Hf. unfold pfn. rewrite (vj_pjet E HE). unfold vj. rewrite Hf. reflexivity. Qed.
    Lemma tensor_timed i a b :
      pall (timed coords (fun f => exists c d, f = FMet i c d /\ c <= d /\ d < dim coords)%nat) (tensor_trend coords tensor factor i a b).
    Proof.
      unfold tensor_trend. apply pscale_all, psum_all. intros q Hq. apply in_flat_map in Hq. destruct Hq as (c & Hc & Hq).
      apply in_map_iff in Hq. destruct Hq as (d & <- & Hd). apply in_seq in Hc, Hd.
      assert (G : forall c d, pall (timed coords (fun f => exists c d, f = FMet i c d /\ c <= d /\ d < dim coords)%nat) (pfn (sym tensor i c d))) by (intros; apply timed_fn).
      apply pmul_all; [apply G|]. apply pmul_all; [|apply G].
      destruct (metric_fn i c d) as (c' & d' & -> & _ & H). apply pall_atom. right. right. split; [exists c', d'; split; [reflexivity|apply H; lia]|].
      exists []. split; [apply spatial_nil|reflexivity].
    Qed.
    Lemma tensor_trend_rate J i a b : (forall c d, (c <= d)%nat -> (d < dim coords)%nat -> J (FMet i c d) = metric_rate E coords eqs i c d) ->
      vp (va E J) (tensor_trend coords tensor factor i a b) = tensor_rate E coords eqs tensor factor i a b.
    Proof.
      intros HJ. unfold tensor_trend, tensor_rate. rewrite vp_pscale by apply (va_inv E HE). rewrite vp_asum. f_equal.
      change (List.length coords) with (dim coords).
      set (S := seq 0 (dim coords)). transitivity (asum (flat_map (fun c => map (fun d =>
          tensor_matrix E tensor i a c * (metric_rate E coords eqs i c d * tensor_matrix E tensor i d b)) S) S)).
      - f_equal. assert (HSin : forall x, In x S -> (x < dim coords)%nat) by (intros x Hx; apply in_seq in Hx; lia).
        assert (G : forall l, (forall x, In x l -> In x S) ->
          map (vp (va E J)) (flat_map (fun c => map (fun d => pmul (pfn (sym tensor i a c)) (pmul (pjet (metric i c d) ["t"]) (pfn (sym tensor i d b)))) S) l)
          = flat_map (fun c => map (fun d => tensor_matrix E tensor i a c * (metric_rate E coords eqs i c d * tensor_matrix E tensor i d b)) S) l).
        { induction l as [|c l IH]; intros Hl; [reflexivity|]. cbn [flat_map]. rewrite map_app, IH by (intros x Hx; apply Hl; right; exact Hx). f_equal.
          rewrite map_map. apply map_ext_in. intros d Hd. rewrite !vp_pmul by apply (va_inv E HE). rewrite (vj_pjet E HE).
          rewrite !vp_fn by (unfold sym; destruct (Nat.ltb _ _); apply Hk). rewrite !(sym_matrix E).
          destruct (metric_fn i c d) as (c' & d' & -> & <- & H). destruct H as [H1 H2]; [apply HSin, Hl; left; reflexivity|apply HSin, Hd|].
          rewrite <- HJ by assumption. reflexivity. }
        apply G. auto.
      - rewrite asum_flat. apply asum_ext. intros c _. unfold mat_mul. rewrite asum_mul_l. reflexivity.
    Qed.
    Lemma in_tensor_moves cov s :
      in_tensor enum enumD enumC enumF enumU coords eqs closure tensor inv scale factor cov = Ok s ->
      moves s (described_list coords eqs cov tensor).
    Proof.
      unfold in_tensor. intros H. ok H m Hm. ok H tr Htr. ok H e He. ok H v Hv. ok H c Hc. apply Ok_inj in H. subst s.
      assert (Hten : forall p, pv E (sub_fns (enumF (metric_to_tensor coords eqs inv scale)) p) = pv E p)
        by (intros p; eapply to_tensor_sound; eassumption).
      assert (Hsub : forall s fs, moves s fs -> moves (map (on_eq (sub_fns (enumF (metric_to_tensor coords eqs inv scale)))) s) fs).
      { intros s fs Hs. rewrite <- (map_id fs). apply (moves_map _ (fun f => f)); auto. }
      apply expectation_moves, closure_moves, Hsub in He. apply variance_moves, closure_moves, Hsub in Hv.
      assert (Hcm : moves (map (on_eq (sub_fns (enumF (metric_to_tensor coords eqs inv scale)))) (apply_closure enumC closure (optional c)))
                      (if cov then covs else [])).
      { apply Hsub, closure_moves. destruct cov; [apply covariance_moves, Hc|]. apply Ok_inj in Hc. subst c. constructor. }
      assert (Hla : map fst (apply_closure enumC closure m) = map td (mets FMet)).
      { unfold apply_closure. clear - Hm Henum HenumD HenumC HenumF HenumU Hcoords Hne HU. destruct closure as [|kv r]; [apply metric_lhs_td, Hm|]. rewrite map_map. cbn [on_eq fst].
        transitivity (map (sub_exps (enumC (kv :: r))) (map fst m)); [rewrite map_map; reflexivity|].
        rewrite (metric_lhs_td m Hm), map_map. apply map_ext. intros f. apply td_sub_exps. }
      assert (HTr : trends E enumF coords eqs (mets FMet) tr).
      { apply (trends_of E enumF coords eqs HenumF HS (apply_closure enumC closure m)).
        - exact Hla.
        - intros q Hq. eapply apply_closure_T0; try exact Hq; auto. eapply metric_T0; try exact Hm; auto.
        - intros f Hf. apply in_map_iff in Hf. destruct Hf as ([i [a b]] & <- & _). split; [reflexivity|]. split; discriminate.
        - apply (of_moves _ (mets FMet)); [|apply closure_moves, metric_moves, Hm].
          exact Hla.
        - exact Htr. }
      assert (Hmt : moves (map (tensor_equation enumF coords eqs tensor inv scale factor tr) (metric_indices coords eqs)) (mets tensor)).
      { assert (G : forall l, (forall x, In x l -> In x (metric_indices coords eqs)) ->
            moves (map (tensor_equation enumF coords eqs tensor inv scale factor tr) l) (map (fun iab => tensor (fst iab) (fst (snd iab)) (snd (snd iab))) l)).
        { induction l as [|[i [a b]] l IH]; intros Hl; constructor; [|apply IH; intros x Hx; apply Hl; right; exact Hx].
          pose proof (Hl _ (or_introl eq_refl)) as Hi. apply indices_in in Hi. cbn [tensor_equation fst snd]. rewrite Hten, Hr.
          destruct (trends_value E enumF coords eqs Ht HS (mets FMet) tr _ _ HTr (tensor_timed i a b)) as (J & HJ & HJR & ->).
          - intros f (c' & d' & -> & H1 & H2). apply in_map_iff. exists (i, (c', d')). split; [reflexivity|]. apply indices_in. unfold dim in *. tauto.
          - apply tensor_trend_rate. intros c' d' H1 H2. rewrite HJR; [reflexivity|]. apply in_map_iff. exists (i, (c', d')). split; [reflexivity|].
            apply indices_in. unfold dim in *. tauto. }
        apply G. auto. }
      pose proof (moves_app _ _ _ _ (moves_app _ _ _ _ He (moves_app _ _ _ _ Hv Hcm)) Hmt) as Hall.
      apply clean_moves in Hall. rewrite <- !app_assoc, !map_app, !map_map in Hall.
      unfold described_list. unfold moves in *.
      replace (map (fun x => unmean (tensor (fst x) (fst (snd x)) (snd (snd x)))) (metric_indices coords eqs)) with (mets tensor) in Hall
        by (apply map_ext; intros; rewrite Hu; reflexivity).
      replace (map unmean (if cov then covs else [])) with (if cov then covs else []) in Hall by (destruct cov; [rewrite map_map|]; reflexivity).
      rewrite !map_app, <- !app_assoc. exact Hall.
    Qed.
  End Tensor.
End Closed.

Section Main.
  Variables (coords : list string) (eqs : list poly).
  Hypothesis Hcoords : NoDup coords.
  Hypothesis Hne : coords <> [].
  Hypothesis Ht : ~ In "t" coords.
  Hypothesis HU : user_system eqs.
  Hypothesis HX : Forall (spatial_poly coords) eqs.
  Notation n := (List.length eqs).

  Lemma all_T0 : forall p, In p eqs -> pall (timed coords none) p.
  Proof. intros p Hp. apply T0_iff. rewrite Forall_forall in HX. exact (HX p Hp). Qed.

  Section Orders.
    Variables (enum : list mi -> list mi) (enumD : tdict -> tdict) (enumC : edict -> edict)
      (enumF : list (fn * poly) -> list (fn * poly)) (enumU : list fn -> list fn).
    Hypothesis HR : rearrangements enum enumD enumC enumF enumU.
    Let Henum := proj1 HR.
    Let HenumD := proj1 (proj2 HR).
    Let HenumC := proj1 (proj2 (proj2 HR)).
    Let HenumF := proj1 (proj2 (proj2 (proj2 HR))).
    Let HenumU := proj2 (proj2 (proj2 (proj2 HR))).

    Lemma main_rates : exists e r v c p m,
      expectation_system enum enumC enumF coords eqs = Ok e /\ error_system enum enumC enumF coords eqs = Ok r
      /\ variance_system enum enumD enumC enumF enumU coords eqs = Ok v
      /\ cross_covariance_system enum enumD enumC enumF enumU coords eqs = Ok c
      /\ epsilon_system enum enumD enumC enumF enumU coords eqs = Ok p
      /\ metric_system enum enumD enumC enumF enumU coords eqs = Ok m
      /\ forall (A : RAlg) (E : env A), statistics coords n E ->
           instantaneous E coords eqs e /\ instantaneous E coords eqs r /\ instantaneous E coords eqs v
           /\ instantaneous E coords eqs (optional c) /\ instantaneous E coords eqs p /\ instantaneous E coords eqs m.
    Proof.
      pose proof all_T0 as HW.
      destruct (expectation_ok enum enumC enumF no_tensor coords eqs) as (e & He & _); auto.
      destruct (error_ok enum enumC enumF no_tensor coords eqs) as (r & Hr & _); auto.
      destruct (variance_ok enum enumD enumC enumF enumU no_tensor coords eqs) as (v & Hv & _); auto.
      destruct (covariance_ok enum enumD enumC enumF enumU no_tensor coords eqs) as (c & Hc & _); auto.
      destruct (epsilon_ok enum enumD enumC enumF enumU no_tensor coords eqs) as (p & Hp & _); auto.
      destruct (metric_ok enum enumD enumC enumF enumU no_tensor coords eqs) as (m & Hm & _); auto.
      exists e, r, v, c, p, m. repeat (split; [assumption|]). intros A E HS. repeat split.
      - eapply expectation_rates; try exact He; assumption.
      - eapply error_rates; try exact Hr; assumption.
      - eapply variance_rates; try exact Hv; assumption.
      - eapply covariance_rates; try exact Hc; assumption.
      - eapply epsilon_rates; try exact Hp; assumption.
      - eapply metric_rates; try exact Hm; assumption.
    Qed.

    Lemma main_metric_rates closure :
      (forall l v, In (l, v) closure -> spatial_poly coords v /\ only n (deterministic_parameter no_tensor coords n) (normalised_error n) v) ->
      exists s, in_metric enum enumD enumC enumF enumU coords eqs closure = Ok s
        /\ map fst s = map time_derivative (described_list coords eqs true FMet)
        /\ forall (A : RAlg) (E : env A), statistics coords n E -> closure_holds E closure ->
             moves E coords eqs s (described_list coords eqs true FMet).
    Proof.
      intros HC. destruct (in_metric_ok enum enumD enumC enumF enumU no_tensor coords eqs) with (closure := closure) as (s & Hs & Hl & _); auto.
      { intros l v Hin. apply closed_of_only, (HC l v Hin). }
      exists s. split; [exact Hs|]. split; [exact Hl|]. intros A E HS HCl.
      eapply in_metric_moves; try exact Hs; auto using all_T0. intros l v Hin. apply T0_iff, (HC l v Hin).
    Qed.

    Lemma main_tensor_rates closure tensor inv scale factor cov (tns : fn -> Prop) :
      (tensor = FDif /\ inv = FInvDif /\ tns = diffusion_tensor /\ factor = (-2)%Q \/ tensor = FAsp /\ inv = FInvAsp /\ tns = aspect_tensor /\ factor = (-1)%Q) ->
      (forall l v, In (l, v) closure -> spatial_poly coords v /\ only n (deterministic_parameter tns coords n) (normalised_error n) v) ->
      exists s, in_tensor enum enumD enumC enumF enumU coords eqs closure tensor inv scale factor cov = Ok s
        /\ map fst s = map time_derivative (described_list coords eqs cov tensor)
        /\ forall (A : RAlg) (E : env A), statistics coords n E -> closure_holds E closure -> tensor_is coords n E tensor inv scale ->
             moves E coords eqs s (described_list coords eqs cov tensor).
    Proof.
      intros Hk HC.
      destruct (in_tensor_ok enum enumD enumC enumF enumU tns coords eqs) with (closure := closure) (tensor := tensor) (inv := inv)
        (scale := scale) (factor := factor) (cov := cov) as (s & Hs & Hl & _); auto.
      { intros l v Hin. apply closed_of_only, (HC l v Hin). }
      { intros i a b H1 H2 H3. destruct Hk as [(-> & -> & -> & ->)|(-> & -> & -> & ->)]; (split; [split; [reflexivity|cbn; auto]|]);
          (split; [intros ? ? ?; discriminate|split; [intros ?; discriminate|intros ? ?; discriminate]]). }
      { intros i a b H1 H2 H3. destruct Hk as [(-> & -> & -> & ->)|(-> & -> & -> & ->)]; (split; [split; [reflexivity|cbn; auto]|]);
          (split; [intros ? ? ?; discriminate|intros ?; discriminate]). }
      exists s. split; [exact Hs|]. split; [exact Hl|]. intros A E HS HCl HT.
      eapply in_tensor_moves; try exact Hs; auto using all_T0; try (intros i a b; destruct Hk as [(-> & -> & -> & ->)|(-> & -> & -> & ->)]; reflexivity).
      intros l v Hin. apply T0_iff, (HC l v Hin).
    Qed.
  End Orders.

  Lemma same_of_moves {A : RAlg} (E : env A) s s' fs : map fst s = map time_derivative fs -> map fst s' = map time_derivative fs ->
    moves E coords eqs s fs -> moves E coords eqs s' fs -> same_values E s s'.
  Proof. intros H1 H2 H3 H4. split; [congruence|]. rewrite (moves_values _ _ _ _ _ H3), (moves_values _ _ _ _ _ H4). reflexivity. Qed.
End Main.

(** *** statements *)
Lemma list_same {A : RAlg} (E : env A) coords eqs s s' fs : map fst s = map time_derivative fs -> map fst s' = map time_derivative fs ->
  instantaneous E coords eqs s -> instantaneous E coords eqs s' -> same_values E s s'.
Proof. intros H1 H2 H3 H4. apply (same_of_moves coords eqs E s s' fs H1 H2); apply moves_of; assumption. Qed.

Lemma main_diffusion_rates enum enumD enumC enumF enumU coords eqs :
  rearrangements enum enumD enumC enumF enumU -> NoDup coords -> coords <> [] -> ~ In "t" coords -> user_system eqs ->
  Forall (spatial_poly coords) eqs ->
  forall closure, (forall l v, In (l, v) closure -> spatial_poly coords v
      /\ only (List.length eqs) (deterministic_parameter diffusion_tensor coords (List.length eqs)) (normalised_error (List.length eqs)) v) ->
  exists s, in_diffusion enum enumD enumC enumF enumU coords eqs closure = Ok s
    /\ map fst s = map time_derivative (described_list coords eqs false FDif)
    /\ forall (A : RAlg) (E : env A), statistics coords (List.length eqs) E -> closure_holds E closure ->
         tensor_is coords (List.length eqs) E FDif FInvDif (1 # 2) -> moves E coords eqs s (described_list coords eqs false FDif).
Proof.
  intros HR Hc Hn Ht HU HX closure HC.
  exact (main_tensor_rates coords eqs Hc Hn Ht HU HX enum enumD enumC enumF enumU HR closure FDif FInvDif (1 # 2) (-2) false diffusion_tensor
           (or_introl (conj eq_refl (conj eq_refl (conj eq_refl eq_refl)))) HC).
Qed.
Lemma main_aspect_rates enum enumD enumC enumF enumU coords eqs :
  rearrangements enum enumD enumC enumF enumU -> NoDup coords -> coords <> [] -> ~ In "t" coords -> user_system eqs ->
  Forall (spatial_poly coords) eqs ->
  forall closure, (forall l v, In (l, v) closure -> spatial_poly coords v
      /\ only (List.length eqs) (deterministic_parameter aspect_tensor coords (List.length eqs)) (normalised_error (List.length eqs)) v) ->
  exists s, in_aspect enum enumD enumC enumF enumU coords eqs closure = Ok s
    /\ map fst s = map time_derivative (described_list coords eqs true FAsp)
    /\ forall (A : RAlg) (E : env A), statistics coords (List.length eqs) E -> closure_holds E closure ->
         tensor_is coords (List.length eqs) E FAsp FInvAsp 1 -> moves E coords eqs s (described_list coords eqs true FAsp).
Proof.
  intros HR Hc Hn Ht HU HX closure HC.
  exact (main_tensor_rates coords eqs Hc Hn Ht HU HX enum enumD enumC enumF enumU HR closure FAsp FInvAsp 1 (-1) true aspect_tensor
           (or_intror (conj eq_refl (conj eq_refl (conj eq_refl eq_refl)))) HC).
Qed.

Lemma order_errors enum enumD enumC enumF enumU enum' enumD' enumC' enumF' enumU' coords eqs :
  rearrangements enum enumD enumC enumF enumU -> rearrangements enum' enumD' enumC' enumF' enumU' ->
  NoDup coords -> coords <> [] -> ~ In "t" coords -> user_system eqs -> Forall (spatial_poly coords) eqs ->
  exists e e' p p', error_system enum enumC enumF coords eqs = Ok e /\ error_system enum' enumC' enumF' coords eqs = Ok e'
    /\ epsilon_system enum enumD enumC enumF enumU coords eqs = Ok p /\ epsilon_system enum' enumD' enumC' enumF' enumU' coords eqs = Ok p'
    /\ forall (A : RAlg) (E : env A), statistics coords (List.length eqs) E -> same_values E e e' /\ same_values E p p'.
Proof.
  intros HR HR' Hc Hn Ht HU HX.
  destruct (main_rates coords eqs Hc Hn Ht HU HX enum enumD enumC enumF enumU HR) as (e0 & e & e1 & e2 & p & e3 & _ & He & _ & _ & Hp & _ & H).
  destruct (main_rates coords eqs Hc Hn Ht HU HX enum' enumD' enumC' enumF' enumU' HR') as (e0' & e' & e1' & e2' & p' & e3' & _ & He' & _ & _ & Hp' & _ & H').
  exists e, e', p, p'. repeat (split; [assumption|]). intros A E HS.
  destruct (H A E HS) as (_ & H1 & _ & _ & H2 & _), (H' A E HS) as (_ & H1' & _ & _ & H2' & _).
  destruct HR as (R1 & R2 & R3 & R4 & R5), HR' as (R1' & R2' & R3' & R4' & R5').
  destruct (error_ok enum enumC enumF no_tensor coords eqs) as (u & Hu & Lu & _); auto. rewrite He in Hu. apply Ok_inj in Hu. subst u.
  destruct (error_ok enum' enumC' enumF' no_tensor coords eqs) as (u & Hu & Lu' & _); auto. rewrite He' in Hu. apply Ok_inj in Hu. subst u.
  destruct (epsilon_ok enum enumD enumC enumF enumU no_tensor coords eqs) as (u & Hu & Lp & _); auto. rewrite Hp in Hu. apply Ok_inj in Hu. subst u.
  destruct (epsilon_ok enum' enumD' enumC' enumF' enumU' no_tensor coords eqs) as (u & Hu & Lp' & _); auto. rewrite Hp' in Hu. apply Ok_inj in Hu. subst u.
  split; [exact (list_same E coords eqs e e' _ Lu Lu' H1 H1')|exact (list_same E coords eqs p p' _ Lp Lp' H2 H2')].
Qed.

Lemma order_pkf enum enumD enumC enumF enumU enum' enumD' enumC' enumF' enumU' coords eqs :
  rearrangements enum enumD enumC enumF enumU -> rearrangements enum' enumD' enumC' enumF' enumU' ->
  NoDup coords -> coords <> [] -> ~ In "t" coords -> user_system eqs -> Forall (spatial_poly coords) eqs ->
  forall closure, (forall l v, In (l, v) closure -> spatial_poly coords v
      /\ only (List.length eqs) (deterministic_parameter no_tensor coords (List.length eqs)) (normalised_error (List.length eqs)) v) ->
  exists m m' d d' a a', in_metric enum enumD enumC enumF enumU coords eqs closure = Ok m
    /\ in_metric enum' enumD' enumC' enumF' enumU' coords eqs closure = Ok m'
    /\ in_diffusion enum enumD enumC enumF enumU coords eqs closure = Ok d
    /\ in_diffusion enum' enumD' enumC' enumF' enumU' coords eqs closure = Ok d'
    /\ in_aspect enum enumD enumC enumF enumU coords eqs closure = Ok a
    /\ in_aspect enum' enumD' enumC' enumF' enumU' coords eqs closure = Ok a'
    /\ forall (A : RAlg) (E : env A), statistics coords (List.length eqs) E -> closure_holds E closure ->
         same_values E m m'
         /\ (tensor_is coords (List.length eqs) E FDif FInvDif (1 # 2) -> same_values E d d')
         /\ (tensor_is coords (List.length eqs) E FAsp FInvAsp 1 -> same_values E a a').
Proof.
  intros HR HR' Hc Hn Ht HU HX closure HC.
  assert (HCd : forall tns l v, In (l, v) closure -> spatial_poly coords v
      /\ only (List.length eqs) (deterministic_parameter tns coords (List.length eqs)) (normalised_error (List.length eqs)) v).
  { intros tns l v Hin. destruct (HC l v Hin) as [H1 H2]. split; [exact H1|apply only_tensor, H2]. }
  destruct (main_metric_rates coords eqs Hc Hn Ht HU HX enum enumD enumC enumF enumU HR closure HC) as (m & Hm & Lm & Vm).
  destruct (main_metric_rates coords eqs Hc Hn Ht HU HX enum' enumD' enumC' enumF' enumU' HR' closure HC) as (m' & Hm' & Lm' & Vm').
  destruct (main_diffusion_rates enum enumD enumC enumF enumU coords eqs HR Hc Hn Ht HU HX closure (HCd _)) as (d & Hd & Ld & Vd).
  destruct (main_diffusion_rates enum' enumD' enumC' enumF' enumU' coords eqs HR' Hc Hn Ht HU HX closure (HCd _)) as (d' & Hd' & Ld' & Vd').
  destruct (main_aspect_rates enum enumD enumC enumF enumU coords eqs HR Hc Hn Ht HU HX closure (HCd _)) as (a & Ha & La & Va).
  destruct (main_aspect_rates enum' enumD' enumC' enumF' enumU' coords eqs HR' Hc Hn Ht HU HX closure (HCd _)) as (a' & Ha' & La' & Va').
  exists m, m', d, d', a, a'. repeat (split; [assumption|]). intros A E HS HCl. split; [|split].
  - exact (same_of_moves coords eqs E m m' _ Lm Lm' (Vm A E HS HCl) (Vm' A E HS HCl)).
  - intros HT. exact (same_of_moves coords eqs E d d' _ Ld Ld' (Vd A E HS HCl HT) (Vd' A E HS HCl HT)).
  - intros HT. exact (same_of_moves coords eqs E a a' _ La La' (Va A E HS HCl HT) (Va' A E HS HCl HT)).
Qed.

Lemma pkf_rates enum enumD enumC enumF enumU coords eqs :
  rearrangements enum enumD enumC enumF enumU -> NoDup coords -> coords <> [] -> ~ In "t" coords -> user_system eqs ->
  Forall (spatial_poly coords) eqs ->
  (forall closure, (forall l v, In (l, v) closure -> spatial_poly coords v
      /\ only (List.length eqs) (deterministic_parameter no_tensor coords (List.length eqs)) (normalised_error (List.length eqs)) v) ->
   exists s, in_metric enum enumD enumC enumF enumU coords eqs closure = Ok s
     /\ forall (A : RAlg) (E : env A), statistics coords (List.length eqs) E -> closure_holds E closure -> instantaneous E coords eqs s)
  /\ (forall closure, (forall l v, In (l, v) closure -> spatial_poly coords v
      /\ only (List.length eqs) (deterministic_parameter diffusion_tensor coords (List.length eqs)) (normalised_error (List.length eqs)) v) ->
   exists s, in_diffusion enum enumD enumC enumF enumU coords eqs closure = Ok s
     /\ forall (A : RAlg) (E : env A), statistics coords (List.length eqs) E -> closure_holds E closure ->
          tensor_is coords (List.length eqs) E FDif FInvDif (1 # 2) -> instantaneous E coords eqs s)
  /\ (forall closure, (forall l v, In (l, v) closure -> spatial_poly coords v
      /\ only (List.length eqs) (deterministic_parameter aspect_tensor coords (List.length eqs)) (normalised_error (List.length eqs)) v) ->
   exists s, in_aspect enum enumD enumC enumF enumU coords eqs closure = Ok s
     /\ forall (A : RAlg) (E : env A), statistics coords (List.length eqs) E -> closure_holds E closure ->
          tensor_is coords (List.length eqs) E FAsp FInvAsp 1 -> instantaneous E coords eqs s).
Proof.
  intros HR Hc Hn Ht HU HX. split; [|split]; intros closure HC.
  - destruct (main_metric_rates coords eqs Hc Hn Ht HU HX enum enumD enumC enumF enumU HR closure HC) as (s & Hs & L & V).
    exists s. split; [exact Hs|]. intros A E HS HCl. exact (of_moves E coords eqs s _ L (V A E HS HCl)).
  - destruct (main_diffusion_rates enum enumD enumC enumF enumU coords eqs HR Hc Hn Ht HU HX closure HC) as (s & Hs & L & V).
    exists s. split; [exact Hs|]. intros A E HS HCl HT. exact (of_moves E coords eqs s _ L (V A E HS HCl HT)).
  - destruct (main_aspect_rates enum enumD enumC enumF enumU coords eqs HR Hc Hn Ht HU HX closure HC) as (s & Hs & L & V).
    exists s. split; [exact Hs|]. intros A E HS HCl HT. exact (of_moves E coords eqs s _ L (V A E HS HCl HT)).
Qed.
