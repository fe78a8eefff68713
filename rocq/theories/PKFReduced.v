(** The averages that remain in the systems of SymbolicPKF (C94). *)
From Coq Require Import List Arith ZArith NArith QArith Bool String Permutation Sorted Lia.
From Verif Require Import PyBase PyBaseFacts PartialOrderModel TreeModel PKFModel PKFSpec PKFAlg PKFAtoms PKFClosure PKFProofs PKFInv PKFShape PKFMore PKFMain
  PKFWords PKFTime PKFTimeSpec PKFExplicit PKFExplicitMain PKFCanon PKFNormal PKFInst PKFInstMore.
Import ListNotations.
Close Scope Q_scope.
Close Scope N_scope.
Close Scope Z_scope.
Open Scope nat_scope.
Open Scope string_scope.
Open Scope list_scope.

Lemma canon_sorted p : canon p -> averages_sorted p.
Proof. intros H l (c & m & w & Hm & Ha). exact (proj2 (H c m Hm) _ Ha). Qed.

Section Reduced.
  Variables (enum : list mi -> list mi) (enumD : tdict -> tdict) (enumC : edict -> edict)
    (enumF : list (fn * poly) -> list (fn * poly)) (enumU : list fn -> list fn).
  Variables (coords : list string) (eqs : list poly).
  Hypothesis HR : rearrangements enum enumD enumC enumF enumU.
  Hypothesis Hcoords : NoDup coords.
  Hypothesis Hne : coords <> [].
  Hypothesis Ht : ~ In "t" coords.
  Hypothesis HU : user_system eqs.
  Hypothesis HS : Forall (spatial_poly coords) eqs.
  Let Henum := proj1 HR.
  Let HenumD := proj1 (proj2 HR).
  Let HenumC := proj1 (proj2 (proj2 HR)).
  Let HenumF := proj1 (proj2 (proj2 (proj2 HR))).
  Let HenumU := proj2 (proj2 (proj2 (proj2 HR))).
  Let HW := HW coords eqs HS.
  Notation n := (List.length eqs).
  Notation closed := (pall (occ (detf (parameter no_tensor coords n)) (oke no_tensor coords eqs) (sigf eqs))).
  Notation T0 := (pall (timed coords none)).

  Lemma ready_reduced p q : closed p -> T0 p -> canon p -> apply_internal_closure enum enumD enumC enumU coords eqs p = Ok q ->
    forall l, averaged_in l q -> reduced n l.
  Proof.
    intros H1 H2 H3. apply apply_reduced; auto; [|apply canon_sorted, H3].
    intros l (c & m & w & Hm & Ha) j Hj. specialize (H1 c m Hm _ Ha j Hj). cbn beta iota in H1. destruct H1 as [Hr [Hok Hne']]. split.
    - destruct (fst j); try discriminate; [destruct (Hne' i eq_refl)|]. exists i. split; [exact Hok|reflexivity].
    - destruct (H2 c m Hm _ Ha) as (_ & _ & [H|(f & w0 & r & _ & [] & _)]). exact (H j Hj).
  Qed.
  Definition reduced_system (s : list pequation) : Prop := forall q l, In q s -> averaged_in l (snd q) -> reduced n l.
  Lemma variance_reduced s : variance_system enum enumD enumC enumF enumU coords eqs = Ok s -> reduced_system s.
  Proof.
    unfold variance_system. destruct (error_system enum enumC enumF coords eqs) as [es|] eqn:Hes; cbn [bind]; [|discriminate].
    destruct (trend_dict es) as [d|] eqn:Hd; cbn [bind]; [|discriminate]. intros H q l Hq.
    destruct (mapM_in _ _ _ _ H Hq) as (i & Hi & Hv). apply fields_in in Hi. unfold variance_equation in Hv.
    destruct (apply_internal_closure _ _ _ _ _ _ _) as [r|] eqn:Hr; cbn [bind] in Hv; [|discriminate]. apply Ok_inj in Hv. subst q. cbn [snd].
    refine (ready_reduced _ r _ _ _ Hr l).
    - eapply pair_closed; try exact Hes; auto. - eapply error_pair; try exact Hes; auto; exact HW.
    - eapply subs_error_canon; auto. eapply trends_canon; auto; [|exact Hd|apply pair_canon]. eapply error_canon; try exact Hes; auto.
  Qed.
  Lemma covariance_reduced s : cross_covariance_system enum enumD enumC enumF enumU coords eqs = Ok s -> reduced_system (optional s).
  Proof.
    unfold cross_covariance_system. destruct (Nat.eqb _ _); [intros H q l Hq; apply Ok_inj in H; subst s; destruct Hq|].
    destruct (error_system enum enumC enumF coords eqs) as [es|] eqn:Hes; cbn [bind]; [|discriminate].
    destruct (trend_dict es) as [d|] eqn:Hd; cbn [bind]; [|discriminate].
    destruct (mapM _ _) as [s'|] eqn:Hm; cbn [bind]; [|discriminate]. intros H q l Hq. apply Ok_inj in H. subst s. cbn [optional] in Hq.
    destruct (mapM_in _ _ _ _ Hm Hq) as ([i j] & Hij & Hv). apply couples_in in Hij. unfold covariance_equation in Hv.
    destruct (internal_closure enum coords eqs) as [cl|]; cbn [bind] in Hv; [|discriminate].
    destruct (dgetE _ _ _) as [V|]; cbn [bind] in Hv; [|discriminate].
    destruct (apply_internal_closure _ _ _ _ _ _ _) as [r|] eqn:Hr; cbn [bind] in Hv; [|discriminate]. apply Ok_inj in Hv. subst q. cbn [snd].
    assert (Hi : i < n) by lia. assert (Hj : j < n) by lia. refine (ready_reduced _ r _ _ _ Hr l).
    - eapply pair_closed; try exact Hes; auto. - eapply error_pair; try exact Hes; auto; exact HW.
    - eapply subs_error_canon; auto. eapply trends_canon; auto; [|exact Hd|apply pair_canon]. eapply error_canon; try exact Hes; auto.
  Qed.
  Lemma metric_reduced s : metric_system enum enumD enumC enumF enumU coords eqs = Ok s -> reduced_system s.
  Proof.
    unfold metric_system. destruct (epsilon_ok enum enumD enumC enumF enumU no_tensor coords eqs) as (es & Hes & Hl & _); auto.
    rewrite Hes. cbn [bind]. destruct (trend_dict es) as [d|] eqn:Hd; cbn [bind]; [|discriminate]. intros H q l Hq.
    destruct (mapM_in _ _ _ _ H Hq) as ([i [a b]] & Hi & Hv). apply indices_in in Hi. unfold metric_equation in Hv.
    destruct (apply_internal_closure _ _ _ _ _ _ _) as [r|] eqn:Hr; cbn [bind] in Hv; [|discriminate]. apply Ok_inj in Hv. subst q. cbn [snd].
    destruct Hi as (Hi & Hab & Hb). refine (ready_reduced _ r _ _ _ Hr l).
    - eapply metric_pair_closed; try exact Hes; auto.
    - refine (trends_none coords (fun f => f = FEps i) (map FEps (fields eqs)) _ _ _); [intros f ->; apply fields_key, Hi|].
      eapply trends_T0; try exact Hd; try exact Hl; auto; [|intros f; apply (fields_ext eqs FEps f (fun _ => eq_refl))|].
      + intros q' Hq'. eapply epsilon_T0; try exact Hes; auto; exact HW.
      + apply pair_timed; auto; apply coord_good; lia.
    - eapply trends_canon; auto; [|exact Hd|apply pair_canon]. eapply epsilon_canon; try exact Hes; auto.
  Qed.
  Lemma main_reduced : exists v c m, variance_system enum enumD enumC enumF enumU coords eqs = Ok v
    /\ cross_covariance_system enum enumD enumC enumF enumU coords eqs = Ok c
    /\ metric_system enum enumD enumC enumF enumU coords eqs = Ok m
    /\ forall q l, In q (v ++ optional c ++ m) -> averaged_in l (snd q) -> reduced n l.
  Proof.
    destruct (variance_ok enum enumD enumC enumF enumU no_tensor coords eqs) as (v & Hv & _); auto.
    destruct (covariance_ok enum enumD enumC enumF enumU no_tensor coords eqs) as (c & Hc & _); auto.
    destruct (metric_ok enum enumD enumC enumF enumU no_tensor coords eqs) as (m & Hm & _); auto.
    exists v, c, m. repeat (split; [assumption|]). intros q l Hq. rewrite !in_app_iff in Hq. destruct Hq as [Hq|[Hq|Hq]].
    - exact (variance_reduced v Hv q l Hq). - exact (covariance_reduced c Hc q l Hq). - exact (metric_reduced m Hm q l Hq).
  Qed.
  Lemma main_internal_keys : exists cl, internal_closure enum coords eqs = Ok cl
    /\ forall l, In l (dkeys cl) <-> internal_key coords n l.
  Proof.
    destruct (internal_ok enum no_tensor coords eqs) as (cl & Hcl & _); auto. exists cl. split; [exact Hcl|].
    eapply internal_keys; auto.
  Qed.
  Lemma main_apply_reduced p : only n (deterministic_parameter no_tensor coords n) (normalised_error n) p -> averages_sorted p ->
    (forall l j, averaged_in l p -> In j l -> spatial_word coords (snd j)) ->
    exists q, apply_internal_closure enum enumD enumC enumU coords eqs p = Ok q /\ forall l, averaged_in l q -> reduced n l.
  Proof.
    intros Ho Hs Hw.
    destruct (apply_ok enum enumD enumC enumU no_tensor coords eqs) with (p := p) as (q & Hq & _); auto.
    { intros c m Hm a Ha. specialize (Ho c m a Hm Ha). destruct a; cbn in *; auto.
      - destruct Ho; split; assumption.
      - intros j Hj. destruct (Ho j Hj) as (i & Hi & E). rewrite E. split; [reflexivity|]. split; [exact Hi|discriminate]. }
    exists q. split; [exact Hq|]. eapply apply_reduced; try exact Hq; auto.
    intros l Hl j Hj. split; [|apply spatial_word_iff, (Hw l j Hl Hj)]. destruct Hl as (c & m & w & Hm & Ha). exact (Ho c m _ Hm Ha j Hj).
  Qed.
End Reduced.

Lemma expectation_not_reduced : exists eqs e q l, user_system eqs /\ Forall (spatial_poly ["x"]) eqs
  /\ expectation_system same same same ["x"] eqs = Ok e /\ In q e /\ averaged_in l (snd q) /\ ~ reduced (List.length eqs) l.
Proof.
  exists slope. destruct (expectation_system same same same ["x"] slope) as [e|] eqn:He; [|vm_compute in He; discriminate].
  vm_compute in He. apply Ok_inj in He. exists e, (nth 0 e ([], [])), [(FEps 0, ["x"]); (FEps 0, ["x"])]. split; [|split; [|split; [|split; [|split]]]].
  - intros p c m a [<-|[]] [Hm|[]]. injection Hm as <- <-. intros [<-|[<-|[]]]; cbn; lia.
  - constructor; [|constructor]. intros c m a [Hm|[]] Ha. injection Hm as <- <-. destruct Ha as [<-|[<-|[]]]; right; (split; [repeat constructor|]);
    intros x [<-|[]]; left; reflexivity.
  - reflexivity.
  - subst e. left. reflexivity.
  - apply averaged_iff. subst e. vm_compute. tauto.
  - intros (_ & _ & H). destruct (H 0 ["x"] 0 ["x"] eq_refl) as [[H1 _]|(_ & H1 & _)]; [apply H1; reflexivity|discriminate].
Qed.
