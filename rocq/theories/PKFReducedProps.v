(** Property C94: the averages that remain in the systems of SymbolicPKF. *)
From Coq Require Import List Arith ZArith QArith Bool String Permutation Sorted.
From Verif Require Import PyBase PartialOrderModel TreeModel PKFModel PKFSpec PKFTimeSpec PKFInst PKFInstMore PKFExplicitMain PKFReduced.
Import ListNotations.
Close Scope Q_scope.
Close Scope Z_scope.
Open Scope nat_scope.
Open Scope string_scope.
Open Scope list_scope.

(** The internal closure gives a value to the averages of the errors, of their products of two, and
    of the products of a normalised error by its derivatives up to order 3: to these and no others. *)
Theorem C94_internal_keys : forall enum enumD enumC enumF enumU coords eqs,
  rearrangements enum enumD enumC enumF enumU -> NoDup coords -> coords <> [] ->
  exists cl, internal_closure enum coords eqs = Ok cl /\ forall l, In l (dkeys cl) <-> internal_key coords (List.length eqs) l.
Proof. exact main_internal_keys. Qed.

(** What _apply_internal_closure leaves, for any expression of normalised errors *)
Theorem C94_apply_reduced : forall enum enumD enumC enumF enumU coords eqs,
  rearrangements enum enumD enumC enumF enumU -> NoDup coords -> coords <> [] ->
  forall p, only (List.length eqs) (deterministic_parameter no_tensor coords (List.length eqs)) (normalised_error (List.length eqs)) p ->
  averages_sorted p -> (forall l j, averaged_in l p -> In j l -> spatial_word coords (snd j)) ->
  exists q, apply_internal_closure enum enumD enumC enumU coords eqs p = Ok q /\ forall l, averaged_in l q -> reduced (List.length eqs) l.
Proof. exact main_apply_reduced. Qed.

(** What remains in the systems of the variances, cross covariances and metric tensors *)
Theorem C94_systems_reduced : forall enum enumD enumC enumF enumU coords eqs,
  rearrangements enum enumD enumC enumF enumU -> NoDup coords -> coords <> [] -> ~ In "t" coords -> user_system eqs ->
  Forall (spatial_poly coords) eqs ->
  exists v c m, variance_system enum enumD enumC enumF enumU coords eqs = Ok v
    /\ cross_covariance_system enum enumD enumC enumF enumU coords eqs = Ok c
    /\ metric_system enum enumD enumC enumF enumU coords eqs = Ok m
    /\ forall q l, In q (v ++ optional c ++ m) -> averaged_in l (snd q) -> reduced (List.length eqs) l.
Proof. exact main_reduced. Qed.

(** The system of the means is not reduced: the internal closure alone is applied to it. *)
Theorem C94_expectation_refuted : exists eqs e q l, user_system eqs /\ Forall (spatial_poly ["x"]) eqs
  /\ expectation_system same same same ["x"] eqs = Ok e /\ In q e /\ averaged_in l (snd q) /\ ~ reduced (List.length eqs) l.
Proof. exact expectation_not_reduced. Qed.

(** Burgers: one average remains, of order 4; the average of the product of two second-order
    derivatives is reduced by the rules of the tree *)
Example C94_example_burgers : exists v c m, variance_system same same same same same ["x"] burgers = Ok v
  /\ cross_covariance_system same same same same same ["x"] burgers = Ok c
  /\ metric_system same same same same same ["x"] burgers = Ok m
  /\ forall q l, In q (v ++ optional c ++ m) -> averaged_in l (snd q) -> reduced 1 l.
Proof.
  apply (C94_systems_reduced same same same same same ["x"] burgers same_rearrangements); [repeat constructor; intros []|discriminate| |exact burgers_user|exact burgers_spatial].
  intros [H|[]]. discriminate.
Qed.
Example C94_example_metric : exists q m, metric_system same same same same same ["x"] burgers = Ok [(q, m)]
  /\ exp_atoms m = [[(FEps 0, []); (FEps 0, ["x"; "x"; "x"; "x"])]].
Proof. do 2 eexists. split; [vm_compute; reflexivity|vm_compute; reflexivity]. Qed.
Example C94_example_keys : exists cl, internal_closure same ["x"; "y"] [[]; []] = Ok cl
  /\ In [(FEps 1, []); (FEps 1, ["x"; "x"; "y"])] (dkeys cl) /\ ~ In [(FEps 1, ["x"]); (FEps 1, ["x"])] (dkeys cl)
  /\ List.length cl = 28.
Proof.
  eexists. split; [vm_compute; reflexivity|]. split; [vm_compute; tauto|]. split; [|vm_compute; reflexivity].
  vm_compute. intros H. repeat (destruct H as [H|H]; [discriminate|]). exact H.
Qed.
Example C94_example_apply : exists q, apply_internal_closure same same same same ["x"] burgers
    [(1%Q, [AJet (FVar 0) []; AExp ["x"] [(FEps 0, ["x"; "x"]); (FEps 0, ["x"; "x"])]])] = Ok q
  /\ forall l, averaged_in l q -> reduced 1 l.
Proof.
  apply (C94_apply_reduced same same same same same ["x"] burgers same_rearrangements); [repeat constructor; intros []|discriminate| | |].
  - intros c m a [H|[]] Ha. injection H as <- <-. destruct Ha as [<-|[<-|[]]].
    + split; [repeat constructor|reflexivity]. + intros j [<-|[<-|[]]]; exists 0; split; constructor.
  - intros l (c & m & w & [H|[]] & Ha). injection H as <- <-. destruct Ha as [H|[H|[]]]; [discriminate|]. injection H as <- <-.
    split; [vm_compute; reflexivity|]. split; [discriminate|]. intros j H. discriminate.
  - intros l j (c & m & w & [H|[]] & Ha) Hj. injection H as <- <-. destruct Ha as [H|[H|[]]]; [discriminate|]. injection H as <- <-.
    destruct Hj as [<-|[<-|[]]]; (split; [repeat constructor|]); intros x [<-|[<-|[]]]; left; reflexivity.
Qed.

Print Assumptions C94_internal_keys.
Print Assumptions C94_apply_reduced.
Print Assumptions C94_systems_reduced.
Print Assumptions C94_expectation_refuted.
