(** Property C112: the parametric dynamics of linear transport, in any number of dimensions. *)
From Coq Require Import List Arith Ring ZArith QArith Qcanon Bool String Permutation Lia.
From Verif Require Import PyBase PartialOrderModel TreeModel Reynolds PKFModel PKFSpec PKFTimeSpec PKFOrderSpec PKFInst PKFInstMore PKFDegreeInst
  PKFLinearSpec PKFLinear PKFTransport PKFTransportMain.
Import ListNotations.
Close Scope Q_scope.
Close Scope Qc_scope.
Close Scope Z_scope.
Open Scope nat_scope.
Open Scope string_scope.
Open Scope list_scope.

(** Linear equations, of any order and for any number of fields: the equations of the means contain
    no average. *)
Theorem C112_linear_means : forall enum enumD enumC enumF enumU coords,
  rearrangements enum enumD enumC enumF enumU -> NoDup coords -> coords <> [] -> ~ In "t" coords ->
  forall eqs, user_system eqs -> Forall (spatial_poly coords) eqs -> Forall linear_poly eqs ->
  exists e, expectation_system enum enumC enumF coords eqs = Ok e /\ no_average e.
Proof. exact linear_mean. Qed.

(** One linear equation of order one: the three forms of the parametric dynamics are closed. *)
Theorem C112_linear_closed : forall enum enumD enumC enumF enumU coords,
  rearrangements enum enumD enumC enumF enumU -> NoDup coords -> coords <> [] -> ~ In "t" coords ->
  forall eqs, user_system eqs -> Forall (spatial_poly coords) eqs -> Forall linear_poly eqs ->
  Forall (order_at_most 1) eqs -> List.length eqs = 1 ->
  exists m d a, in_metric enum enumD enumC enumF enumU coords eqs [] = Ok m
    /\ in_diffusion enum enumD enumC enumF enumU coords eqs [] = Ok d
    /\ in_aspect enum enumD enumC enumF enumU coords eqs [] = Ok a
    /\ one_field_system coords FMet m /\ one_field_system coords FDif d /\ one_field_system coords FAsp a
    /\ no_average m /\ no_average d /\ no_average a
    /\ unclosed_terms enum enumD enumC enumF enumU coords eqs [] = Ok [].
Proof. exact linear_closed. Qed.

(** Transport with growth and source: the right-hand sides are those of the transport of the mean, of
    the variance, of a covariant and of a contravariant tensor. *)
Theorem C112_transport : forall enum enumD enumC enumF enumU coords,
  rearrangements enum enumD enumC enumF enumU -> NoDup coords -> coords <> [] -> ~ In "t" coords ->
  forall deps growth source, let eqs := [transport_rhs coords deps growth source] in
  exists m d a, in_metric enum enumD enumC enumF enumU coords eqs [] = Ok m
    /\ in_diffusion enum enumD enumC enumF enumU coords eqs [] = Ok d
    /\ in_aspect enum enumD enumC enumF enumU coords eqs [] = Ok a
    /\ forall (A : RAlg) (E : env A), statistics coords 1 E ->
         transports coords deps growth source E m
         /\ (tensor_is coords 1 E FDif FInvDif (1 # 2) -> transports coords deps growth source E d)
         /\ (tensor_is coords 1 E FAsp FInvAsp 1 -> transports coords deps growth source E a).
Proof. exact transport_main. Qed.

(** advection_in_2D (dynamics.py) and its systems *)
Definition advection_2D : list poly := [transport_rhs ["x"; "y"] (fun _ => ["x"; "y"]) None None].
Example C112_advection_2D : advection_2D =
  [[((-1)%Q, [AJet (FExt 0 ["x"; "y"]) []; AJet (FField 0) ["x"]]); ((-1)%Q, [AJet (FExt 1 ["x"; "y"]) []; AJet (FField 0) ["y"]])]].
Proof. reflexivity. Qed.
Example C112_advection_2D_closed : exists m d a, in_metric same same same same same ["x"; "y"] advection_2D [] = Ok m
  /\ in_diffusion same same same same same ["x"; "y"] advection_2D [] = Ok d /\ in_aspect same same same same same ["x"; "y"] advection_2D [] = Ok a
  /\ one_field_system ["x"; "y"] FMet m /\ one_field_system ["x"; "y"] FDif d /\ one_field_system ["x"; "y"] FAsp a
  /\ no_average m /\ no_average d /\ no_average a /\ unclosed_terms same same same same same ["x"; "y"] advection_2D [] = Ok [].
Proof.
  apply (C112_linear_closed same same same same same ["x"; "y"] same_rearrangements);
    [repeat constructor; cbn; intuition discriminate|discriminate|cbn; intuition discriminate|apply rhs_user|apply rhs_spatial|apply rhs_linear|apply rhs_order|reflexivity].
Qed.

(** D_t c = - w D_x c + r c with w = r = exp(2 z), z = x - 2 t, and the errors of PKFInst *)
Example C112_setting : statistics ["x"] 1 sys_env /\ tensor_is ["x"] 1 sys_env FDif FInvDif (1 # 2) /\ tensor_is ["x"] 1 sys_env FAsp FInvAsp 1
  /\ transport_rate ["x"] (fun _ => ["t"; "x"]) (Some ["t"; "x"]) None sys_env (FMet 0 0 0) = (- (two * two * (sg * sg)))%ra.
Proof.
  split; [|split; [|split]].
  - destruct sys_statistics. constructor; auto.
  - intros i Hi. apply sys_diffusion. lia.
  - intros i Hi. apply sys_aspect. lia.
  - assert (Two : two = (1 + 1)%ra) by (unfold two; rewrite cq_add, cq_1; reflexivity).
    cbv [transport_rate along over shear wind nth seq map List.length asum fold_right tensor_matrix Nat.ltb Nat.leb e_fn sys_env].
    change (if list_eq_dec string_dec ["t"; "x"] ["t"; "x"] then ?x else ?y) with x.
    rewrite dd_mul, dx_sg, (dd_1 (A := W)), Two. ring.
Qed.
(** linear equations of order two are not closed, nor are equations of order one that are not linear *)
Example C112_limits :
  (exists m q l, metric_system same same same same same ["x"] [[(1%Q, [AJet (FField 0) ["x"; "x"]])]] = Ok m /\ In q m /\ averaged_in l (snd q) /\ total_order l = 4)
  /\ (exists l, unclosed_terms same same same same same ["x"] slope [] = Ok [l]).
Proof.
  split.
  - destruct (metric_system same same same same same ["x"] [[(1%Q, [AJet (FField 0) ["x"; "x"]])]]) as [m|] eqn:E; [|vm_compute in E; discriminate]. exists m.
    destruct (found m 4) as (q & l & H); [|exists q, l; split; [reflexivity|exact H]]. vm_compute in E. injection E as <-. vm_compute. reflexivity.
  - eexists. exact (proj1 slope_unclosed).
Qed.

Print Assumptions C112_linear_means.
Print Assumptions C112_linear_closed.
Print Assumptions C112_transport.
