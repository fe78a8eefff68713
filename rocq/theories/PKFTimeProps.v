(** Property C93: the systems of SymbolicPKF are explicit evolution equations. *)
From Coq Require Import List Arith ZArith QArith Bool String Permutation Sorted.
From Verif Require Import PyBase PartialOrderModel TreeModel PKFModel PKFSpec PKFTimeSpec PKFInst PKFInstMore PKFExplicitMain.
Import ListNotations.
Close Scope Q_scope.
Close Scope Z_scope.
Open Scope nat_scope.
Open Scope string_scope.
Open Scope list_scope.

Theorem C93_explicit_errors : forall enum enumD enumC enumF enumU coords eqs,
  rearrangements enum enumD enumC enumF enumU -> NoDup coords -> coords <> [] -> ~ In "t" coords -> user_system eqs ->
  Forall (spatial_poly coords) eqs ->
  exists e s, error_system enum enumC enumF coords eqs = Ok e
    /\ epsilon_system enum enumD enumC enumF enumU coords eqs = Ok s
    /\ spatial_system coords e /\ spatial_system coords s.
Proof. exact explicit_errors. Qed.

Theorem C93_explicit_parameters : forall enum enumD enumC enumF enumU coords eqs,
  rearrangements enum enumD enumC enumF enumU -> NoDup coords -> coords <> [] -> ~ In "t" coords -> user_system eqs ->
  Forall (spatial_poly coords) eqs ->
  exists e v c m, expectation_system enum enumC enumF coords eqs = Ok e
    /\ variance_system enum enumD enumC enumF enumU coords eqs = Ok v
    /\ cross_covariance_system enum enumD enumC enumF enumU coords eqs = Ok c
    /\ metric_system enum enumD enumC enumF enumU coords eqs = Ok m
    /\ spatial_system coords e /\ spatial_system coords v /\ spatial_system coords (optional c) /\ spatial_system coords m.
Proof. exact explicit_parameters. Qed.

Theorem C93_explicit_pkf : forall enum enumD enumC enumF enumU coords eqs,
  rearrangements enum enumD enumC enumF enumU -> NoDup coords -> coords <> [] -> ~ In "t" coords -> user_system eqs ->
  Forall (spatial_poly coords) eqs ->
  forall closure, (forall l v, In (l, v) closure -> spatial_poly coords v
      /\ only (List.length eqs) (deterministic_parameter no_tensor coords (List.length eqs)) (normalised_error (List.length eqs)) v) ->
  exists m d a, in_metric enum enumD enumC enumF enumU coords eqs closure = Ok m
    /\ in_diffusion enum enumD enumC enumF enumU coords eqs closure = Ok d
    /\ in_aspect enum enumD enumC enumF enumU coords eqs closure = Ok a
    /\ spatial_system coords m /\ spatial_system coords d /\ spatial_system coords a.
Proof. exact explicit_pkf. Qed.

(** Burgers, with a closure of its fourth-order average *)
Example C93_example : exists m d a,
  in_metric same same same same same ["x"] burgers [(jkey [(FEps 0, []); (FEps 0, ["x"; "x"; "x"; "x"])], pjet (FMet 0 0 0) ["x"; "x"])] = Ok m
  /\ in_diffusion same same same same same ["x"] burgers [(jkey [(FEps 0, []); (FEps 0, ["x"; "x"; "x"; "x"])], pjet (FMet 0 0 0) ["x"; "x"])] = Ok d
  /\ in_aspect same same same same same ["x"] burgers [(jkey [(FEps 0, []); (FEps 0, ["x"; "x"; "x"; "x"])], pjet (FMet 0 0 0) ["x"; "x"])] = Ok a
  /\ spatial_system ["x"] m /\ spatial_system ["x"] d /\ spatial_system ["x"] a.
Proof.
  apply (C93_explicit_pkf same same same same same ["x"] burgers same_rearrangements).
  - repeat constructor. intros []. - discriminate. - intros [H|[]]. discriminate. - exact burgers_user.
  - exact burgers_spatial.
  - intros l v [H|[]]. injection H as _ <-. split.
    + intros c m a [H|[]] Ha. injection H as _ <-. destruct Ha as [<-|[]]. right. split; [repeat constructor|].
      intros x [<-|[<-|[]]]; left; reflexivity.
    + intros c m a [H|[]] Ha. injection H as _ <-. destruct Ha as [<-|[]]. split; [repeat constructor|reflexivity].
Qed.

Print Assumptions C93_explicit_errors.
Print Assumptions C93_explicit_parameters.
Print Assumptions C93_explicit_pkf.
