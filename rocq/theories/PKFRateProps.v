(** Property C100: the right-hand sides of the systems of SymbolicPKF, at one instant. *)
From Coq Require Import List Arith ZArith QArith Bool String Permutation Sorted.
From Verif Require Import PyBase PartialOrderModel TreeModel Reynolds PKFModel PKFSpec PKFTimeSpec PKFRateSpec PKFInst PKFInstMore PKFRateMain.
Import ListNotations.
Close Scope Q_scope.
Close Scope Z_scope.
Open Scope nat_scope.
Open Scope string_scope.
Open Scope list_scope.

Theorem C100_rates : forall enum enumD enumC enumF enumU coords eqs,
  rearrangements enum enumD enumC enumF enumU -> NoDup coords -> coords <> [] -> ~ In "t" coords -> user_system eqs ->
  Forall (spatial_poly coords) eqs ->
  exists e r v c p m,
    expectation_system enum enumC enumF coords eqs = Ok e /\ error_system enum enumC enumF coords eqs = Ok r
    /\ variance_system enum enumD enumC enumF enumU coords eqs = Ok v
    /\ cross_covariance_system enum enumD enumC enumF enumU coords eqs = Ok c
    /\ epsilon_system enum enumD enumC enumF enumU coords eqs = Ok p
    /\ metric_system enum enumD enumC enumF enumU coords eqs = Ok m
    /\ forall (A : RAlg) (E : env A), statistics coords (List.length eqs) E ->
         instantaneous E coords eqs e /\ instantaneous E coords eqs r /\ instantaneous E coords eqs v
         /\ instantaneous E coords eqs (optional c) /\ instantaneous E coords eqs p /\ instantaneous E coords eqs m.
Proof. intros enum enumD enumC enumF enumU coords eqs HR Hc Hn Ht HU HX. apply main_rates; assumption. Qed.

Theorem C100_pkf_rates : forall enum enumD enumC enumF enumU coords eqs,
  rearrangements enum enumD enumC enumF enumU -> NoDup coords -> coords <> [] -> ~ In "t" coords -> user_system eqs ->
  Forall (spatial_poly coords) eqs ->
  (forall closure, (forall l v, In (l, v) closure -> spatial_poly coords v
      /\ only (List.length eqs) (deterministic_parameter no_tensor coords (List.length eqs)) (normalised_error (List.length eqs)) v) ->
   exists s, in_metric enum enumD enumC enumF enumU coords eqs closure = Ok s
     /\ forall (A : RAlg) (E : env A), statistics coords (List.length eqs) E -> closure_holds E closure -> instantaneous E coords eqs s)
  /\ (forall closure, (forall l v, In (l, v) closure -> spatial_poly coords v
      /\ only (List.length eqs) (deterministic_parameter diffusion_tensor coords (List.length eqs)) (normalised_error (List.length eqs)) v) ->
   exists s, in_diffusion enum enumD enumC enumF enumU coords eqs closure = Ok s
     /\ forall (A : RAlg) (E : env A), statistics coords (List.length eqs) E -> closure_holds E closure ->
          tensor_is coords (List.length eqs) E FDif FInvDif (1 # 2) -> instantaneous E coords eqs s)
  /\ (forall closure, (forall l v, In (l, v) closure -> spatial_poly coords v
      /\ only (List.length eqs) (deterministic_parameter aspect_tensor coords (List.length eqs)) (normalised_error (List.length eqs)) v) ->
   exists s, in_aspect enum enumD enumC enumF enumU coords eqs closure = Ok s
     /\ forall (A : RAlg) (E : env A), statistics coords (List.length eqs) E -> closure_holds E closure ->
          tensor_is coords (List.length eqs) E FAsp FInvAsp 1 -> instantaneous E coords eqs s).
Proof. exact pkf_rates. Qed.

Theorem C100_order_errors : forall enum enumD enumC enumF enumU enum' enumD' enumC' enumF' enumU' coords eqs,
  rearrangements enum enumD enumC enumF enumU -> rearrangements enum' enumD' enumC' enumF' enumU' ->
  NoDup coords -> coords <> [] -> ~ In "t" coords -> user_system eqs -> Forall (spatial_poly coords) eqs ->
  exists e e' p p', error_system enum enumC enumF coords eqs = Ok e /\ error_system enum' enumC' enumF' coords eqs = Ok e'
    /\ epsilon_system enum enumD enumC enumF enumU coords eqs = Ok p /\ epsilon_system enum' enumD' enumC' enumF' enumU' coords eqs = Ok p'
    /\ forall (A : RAlg) (E : env A), statistics coords (List.length eqs) E -> same_values E e e' /\ same_values E p p'.
Proof. exact order_errors. Qed.

Theorem C100_order_pkf : forall enum enumD enumC enumF enumU enum' enumD' enumC' enumF' enumU' coords eqs,
  rearrangements enum enumD enumC enumF enumU -> rearrangements enum' enumD' enumC' enumF' enumU' ->
  NoDup coords -> coords <> [] -> ~ In "t" coords -> user_system eqs -> Forall (spatial_poly coords) eqs ->
  forall closure, (forall l v, In (l, v) closure -> spatial_poly coords v
      /\ only (List.length eqs) (deterministic_parameter no_tensor coords (List.length eqs)) (normalised_error (List.length eqs)) v) ->
  exists m m' d d' a a', in_metric enum enumD enumC enumF enumU coords eqs closure = Ok m
    /\ in_metric enum' enumD' enumC' enumF' enumU' coords eqs closure = Ok m'
    /\ in_diffusion enum enumD enumC enumF enumU coords eqs closure = Ok d
    /\ in_diffusion enum' enumD' enumC' enumF' enumU' coords eqs closure = Ok d'
    /\ in_aspect enum enumD enumC enumF enumU coords eqs closure = Ok a
    /\ in_aspect enum' enumD' enumC' enumF' enumU' coords eqs closure = Ok a'
    /\ forall (A : RAlg) (E : env A), statistics coords (List.length eqs) E -> closure_holds E closure ->
         same_values E m m'
         /\ (tensor_is coords (List.length eqs) E FDif FInvDif (1 # 2) -> same_values E d d')
         /\ (tensor_is coords (List.length eqs) E FAsp FInvAsp 1 -> same_values E a a').
Proof. exact order_pkf. Qed.

(** the two fields of PKFInst, with every iteration order reversed *)
Example C100_setting : rearrangements (@rev _) (@rev _) (@rev _) (@rev _) (@rev _)
  /\ user_system two_fields /\ Forall (spatial_poly ["x"]) two_fields
  /\ statistics ["x"] (List.length two_fields) sys_env /\ closure_holds sys_env []
  /\ tensor_is ["x"] (List.length two_fields) sys_env FDif FInvDif (1 # 2)
  /\ tensor_is ["x"] (List.length two_fields) sys_env FAsp FInvAsp 1.
Proof.
  split; [repeat split; intros l; apply Permutation_sym, Permutation_rev|]. split; [exact two_fields_user|]. split.
  { repeat constructor; intros c m a Hm Ha; cbn in Hm; repeat (destruct Hm as [Hm|Hm]; [injection Hm as <- <-; cbn in Ha;
      repeat (destruct Ha as [<-|Ha]; [first [right; split; [repeat constructor|intros x Hx; cbn in *; tauto]
        |left; do 2 eexists; reflexivity]|]); destruct Ha|]); destruct Hm. }
  split; [exact sys_statistics|]. split; [intros l v []|]. split; [exact sys_diffusion|exact sys_aspect].
Qed.
Example C100_example : exists s m m', variance_system same same same same same ["x"] two_fields = Ok s /\ instantaneous sys_env ["x"] two_fields s
  /\ in_metric same same same same same ["x"] two_fields [] = Ok m
  /\ in_metric (@rev _) (@rev _) (@rev _) (@rev _) (@rev _) ["x"] two_fields [] = Ok m'
  /\ List.length m = 7 /\ same_values sys_env m m'.
Proof.
  destruct C100_setting as (HR & HU & HX & HS & HC & _ & _).
  assert (H1 : NoDup ["x"]) by (constructor; [intros []|constructor]).
  assert (H2 : ["x"] <> []) by discriminate. assert (H3 : ~ In "t" ["x"]) by (intros [H|[]]; discriminate).
  destruct (C100_rates same same same same same ["x"] two_fields same_rearrangements H1 H2 H3 HU HX)
    as (e & r & s & c & p & mm & _ & _ & Hs & _ & _ & _ & K).
  destruct (C100_order_pkf same same same same same (@rev _) (@rev _) (@rev _) (@rev _) (@rev _) ["x"] two_fields same_rearrangements HR H1 H2 H3 HU HX [])
    as (m & m' & d & d' & a & a' & Hm & Hm' & _ & _ & _ & _ & K'); [intros l v []|].
  exists s, m, m'. split; [exact Hs|]. split; [apply (K W sys_env HS)|]. split; [exact Hm|]. split; [exact Hm'|].
  split; [|apply (K' W sys_env HS HC)].
  assert (L : match in_metric same same same same same ["x"] two_fields [] with Ok s => List.length s | Err _ => 0 end = 7) by (vm_compute; reflexivity).
  rewrite Hm in L. exact L.
Qed.

Print Assumptions C100_rates.
Print Assumptions C100_pkf_rates.
Print Assumptions C100_order_errors.
Print Assumptions C100_order_pkf.
