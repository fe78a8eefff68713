(** The explicit systems of C93. *)
From Coq Require Import List Arith ZArith QArith Bool String Permutation Sorted Lia.
From Verif Require Import PyBase PyBaseFacts PartialOrderModel TreeModel PKFModel PKFSpec PKFAlg PKFAtoms PKFInv PKFShape PKFMain
  PKFWords PKFTime PKFTimeSpec PKFExplicit PKFInst PKFInstMore.
Import ListNotations.
Close Scope Q_scope.
Close Scope Z_scope.
Open Scope nat_scope.
Open Scope string_scope.
Open Scope list_scope.

Lemma spatial_system_of coords s : (forall q, In q s -> pall (timed coords none) (snd q)) -> spatial_system coords s.
Proof. intros H q Hq. apply T0_iff, H, Hq. Qed.

Section Main.
  Variables (enum : list mi -> list mi) (enumD : tdict -> tdict) (enumC : edict -> edict)
            (enumF : list (fn * poly) -> list (fn * poly)) (enumU : list fn -> list fn).
  Variables (coords : list string) (eqs : list poly).
  Hypothesis HR : rearrangements enum enumD enumC enumF enumU.
  Hypothesis Hcoords : NoDup coords.
  Hypothesis Hne : coords <> [].
  Hypothesis Ht : ~ In "t" coords.
  Hypothesis HU : user_system eqs.
  Hypothesis HS : Forall (spatial_poly coords) eqs.
  Let Henum := proj1 HR.
  Let HenumD := proj1 (proj2 HR).
  Let HenumC := proj1 (proj2 (proj2 HR)).
  Let HenumF := proj1 (proj2 (proj2 (proj2 HR))).
  Let HenumU := proj2 (proj2 (proj2 (proj2 HR))).
  Lemma HW : forall p, In p eqs -> pall (timed coords none) p.
  Proof. rewrite Forall_forall in HS. intros p Hp. apply T0_iff, HS, Hp. Qed.

  Lemma explicit_errors : exists e s, error_system enum enumC enumF coords eqs = Ok e
    /\ epsilon_system enum enumD enumC enumF enumU coords eqs = Ok s
    /\ spatial_system coords e /\ spatial_system coords s.
  Proof.
    destruct (error_ok enum enumC enumF no_tensor coords eqs) as (e & He & _); auto.
    destruct (epsilon_ok enum enumD enumC enumF enumU no_tensor coords eqs) as (s & Hs & _); auto.
    exists e, s. split; [exact He|]. split; [exact Hs|]. split; apply spatial_system_of.
    - intros q Hq. eapply error_T0; try exact He; auto; exact HW.
    - intros q Hq. eapply epsilon_T0; try exact Hs; auto; exact HW.
  Qed.
  Lemma explicit_parameters : exists e v c m, expectation_system enum enumC enumF coords eqs = Ok e
    /\ variance_system enum enumD enumC enumF enumU coords eqs = Ok v
    /\ cross_covariance_system enum enumD enumC enumF enumU coords eqs = Ok c
    /\ metric_system enum enumD enumC enumF enumU coords eqs = Ok m
    /\ spatial_system coords e /\ spatial_system coords v /\ spatial_system coords (optional c) /\ spatial_system coords m.
  Proof.
    destruct (expectation_ok enum enumC enumF no_tensor coords eqs) as (e & He & _); auto.
    destruct (variance_ok enum enumD enumC enumF enumU no_tensor coords eqs) as (v & Hv & _); auto.
    destruct (covariance_ok enum enumD enumC enumF enumU no_tensor coords eqs) as (c & Hc & _); auto.
    destruct (metric_ok enum enumD enumC enumF enumU no_tensor coords eqs) as (m & Hm & _); auto.
    exists e, v, c, m. repeat (split; [assumption|]). split; [|split; [|split]]; apply spatial_system_of.
    - intros q Hq. eapply expectation_T0; try exact He; auto; exact HW.
    - intros q Hq. eapply variance_T0; try exact Hv; auto; exact HW.
    - intros q Hq. eapply covariance_T0; try exact Hc; auto; exact HW.
    - intros q Hq. eapply metric_T0; try exact Hm; auto; exact HW.
  Qed.

  Variable closure : edict.
  Hypothesis HC : forall l v, In (l, v) closure -> spatial_poly coords v
      /\ only (List.length eqs) (deterministic_parameter no_tensor coords (List.length eqs)) (normalised_error (List.length eqs)) v.
  Lemma explicit_pkf : exists m d a, in_metric enum enumD enumC enumF enumU coords eqs closure = Ok m
    /\ in_diffusion enum enumD enumC enumF enumU coords eqs closure = Ok d
    /\ in_aspect enum enumD enumC enumF enumU coords eqs closure = Ok a
    /\ spatial_system coords m /\ spatial_system coords d /\ spatial_system coords a.
  Proof.
    assert (HC1 := fun l v H => proj2 (HC l v H)).
    assert (HCd := fun l v H => only_tensor diffusion_tensor coords (List.length eqs) v (HC1 l v H)).
    assert (HCa := fun l v H => only_tensor aspect_tensor coords (List.length eqs) v (HC1 l v H)).
    assert (HC2 : forall l v, In (l, v) closure -> pall (timed coords none) v) by (intros l v H; apply T0_iff, (HC l v H)).
    destruct (main_in_metric enum enumD enumC enumF enumU coords eqs HR Hcoords Hne HU closure HC1) as (_ & m & Hm & _).
    destruct (main_in_diffusion enum enumD enumC enumF enumU coords eqs HR Hcoords Hne HU closure HCd) as (_ & d & Hd & _).
    destruct (main_in_aspect enum enumD enumC enumF enumU coords eqs HR Hcoords Hne HU closure HCa) as (_ & a & Ha & _).
    exists m, d, a. repeat (split; [assumption|]). split; [|split]; apply spatial_system_of; intros q Hq.
    - eapply in_metric_T0; try exact Hm; auto; exact HW.
    - unfold in_diffusion in Hd. eapply in_tensor_T0; try exact Hd; auto. exact HW.
    - unfold in_aspect in Ha. eapply in_tensor_T0; try exact Ha; auto. exact HW.
  Qed.
End Main.

Lemma burgers_user : user_system burgers.
Proof.
  intros p c m a [<-|[]] Hm Ha. destruct Hm as [H|[H|[]]]; injection H as <- <-; destruct Ha as [<-|[<-|[]]]; cbn; auto.
Qed.
Lemma burgers_spatial : Forall (spatial_poly ["x"]) burgers.
Proof.
  constructor; [|constructor]. intros c m a Hm Ha. destruct Hm as [H|[H|[]]]; injection H as <- <-; destruct Ha as [<-|[<-|[]]]; try exact I; right;
  (split; [repeat constructor|]); intros x Hx; cbn in Hx; cbn; tauto.
Qed.
