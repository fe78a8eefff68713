(** Property C96: the order of the averages that remain in the systems of SymbolicPKF. *)
From Coq Require Import List Arith ZArith QArith Bool String Permutation Sorted Lia.
From Verif Require Import PyBase PartialOrderModel TreeModel PKFModel PKFSpec PKFTimeSpec PKFOrderSpec PKFInst PKFInstMore PKFExplicitMain PKFReduced PKFDegreeMain PKFDegreeInst.
Import ListNotations.
Close Scope Q_scope.
Close Scope Z_scope.
Open Scope nat_scope.
Open Scope string_scope.
Open Scope list_scope.

(** Equations whose derivatives are of order at most k: the averages left are of products of two
    normalised errors, of total order 2k (means), k (variances and covariances), k + 2 (metrics). *)
Theorem C96_orders : forall enum enumD enumC enumF enumU coords eqs k,
  rearrangements enum enumD enumC enumF enumU -> NoDup coords -> coords <> [] -> ~ In "t" coords -> user_system eqs ->
  Forall (spatial_poly coords) eqs -> Forall (order_at_most k) eqs ->
  exists e v c m, expectation_system enum enumC enumF coords eqs = Ok e
    /\ variance_system enum enumD enumC enumF enumU coords eqs = Ok v
    /\ cross_covariance_system enum enumD enumC enumF enumU coords eqs = Ok c
    /\ metric_system enum enumD enumC enumF enumU coords eqs = Ok m
    /\ orders_bounded (2 * k) e /\ orders_bounded k (v ++ optional c) /\ orders_bounded (k + 2) m.
Proof. exact main_orders. Qed.

(** A single field: the averages left are E[eps D^w eps], w of order 4 or more *)
Theorem C96_one_field : forall enum enumD enumC enumF enumU coords eqs k,
  rearrangements enum enumD enumC enumF enumU -> NoDup coords -> coords <> [] -> ~ In "t" coords -> user_system eqs ->
  Forall (spatial_poly coords) eqs -> Forall (order_at_most k) eqs -> List.length eqs = 1 ->
  exists v m, variance_system enum enumD enumC enumF enumU coords eqs = Ok v
    /\ metric_system enum enumD enumC enumF enumU coords eqs = Ok m
    /\ (forall q l, In q v -> averaged_in l (snd q) -> one_average coords k l)
    /\ (forall q l, In q m -> averaged_in l (snd q) -> one_average coords (k + 2) l).
Proof. exact main_one. Qed.

(** A single field: the variance equation is closed up to order 3, the metric equations at order 1 *)
Theorem C96_closed : forall enum enumD enumC enumF enumU coords eqs k,
  rearrangements enum enumD enumC enumF enumU -> NoDup coords -> coords <> [] -> ~ In "t" coords -> user_system eqs ->
  Forall (spatial_poly coords) eqs -> Forall (order_at_most k) eqs -> List.length eqs = 1 ->
  exists v m, variance_system enum enumD enumC enumF enumU coords eqs = Ok v
    /\ metric_system enum enumD enumC enumF enumU coords eqs = Ok m
    /\ (k <= 3 -> forall q l, In q v -> ~ averaged_in l (snd q))
    /\ (k <= 1 -> forall q l, In q m -> ~ averaged_in l (snd q)).
Proof. exact main_closed. Qed.

(** pkf.unclosed_terms without closure *)
Theorem C96_unclosed : forall enum enumD enumC enumF enumU coords eqs k,
  rearrangements enum enumD enumC enumF enumU -> NoDup coords -> coords <> [] -> ~ In "t" coords -> user_system eqs ->
  Forall (spatial_poly coords) eqs -> Forall (order_at_most k) eqs ->
  exists us, unclosed_terms enum enumD enumC enumF enumU coords eqs [] = Ok us
    /\ forall l, In l us -> List.length l <= 2 /\ total_order l <= Nat.max (2 * k) (k + 2).
Proof. exact main_unclosed. Qed.

(** The bounds are attained: k + 2 for the metric, k for the variance, and 2k for the means *)
Theorem C96_sharp :
  (exists m q l, metric_system same same same same same ["x"] burgers = Ok m /\ In q m /\ averaged_in l (snd q) /\ total_order l = 2 + 2)
  /\ (exists v q l, variance_system same same same same same ["x"] hyper = Ok v /\ In q v /\ averaged_in l (snd q) /\ total_order l = 4)
  /\ (exists e q l, expectation_system same same same ["x"] slope = Ok e /\ In q e /\ averaged_in l (snd q) /\ total_order l = 2 * 1).
Proof. exact sharp. Qed.

(** With two fields a system of order 1 is not closed, and with one field the equation of the mean
    may not be *)
Theorem C96_first_order_refuted :
  (exists c q l, Forall (order_at_most 1) two_fields /\ cross_covariance_system same same same same same ["x"] two_fields = Ok (Some c)
     /\ In q c /\ averaged_in l (snd q))
  /\ (exists l, Forall (order_at_most 1) slope /\ unclosed_terms same same same same same ["x"] slope [] = Ok [l]).
Proof. exact first_order_open. Qed.

Example C96_example_burgers : exists v m, variance_system same same same same same ["x"] burgers = Ok v
  /\ metric_system same same same same same ["x"] burgers = Ok m
  /\ (2 <= 3 -> forall q l, In q v -> ~ averaged_in l (snd q)) /\ (2 <= 1 -> forall q l, In q m -> ~ averaged_in l (snd q)).
Proof.
  apply (C96_closed same same same same same ["x"] burgers 2 same_rearrangements); [repeat constructor; intros []|discriminate| |exact burgers_user|exact burgers_spatial|exact burgers_order|reflexivity].
  intros [H|[]]. discriminate.
Qed.
Example C96_example_transport : exists v m, variance_system same same same same same ["x"; "y"] transport = Ok v
  /\ metric_system same same same same same ["x"; "y"] transport = Ok m
  /\ (1 <= 3 -> forall q l, In q v -> ~ averaged_in l (snd q)) /\ (1 <= 1 -> forall q l, In q m -> ~ averaged_in l (snd q)).
Proof.
  apply (C96_closed same same same same same ["x"; "y"] transport 1 same_rearrangements); [repeat constructor; cbn; intuition discriminate|discriminate| |exact transport_user|exact transport_spatial|exact transport_order|reflexivity].
  cbn. intuition discriminate.
Qed.
Example C96_example_orders : exists e v c m, expectation_system same same same ["x"] two_fields = Ok e
    /\ variance_system same same same same same ["x"] two_fields = Ok v
    /\ cross_covariance_system same same same same same ["x"] two_fields = Ok c
    /\ metric_system same same same same same ["x"] two_fields = Ok m
    /\ orders_bounded 2 e /\ orders_bounded 1 (v ++ optional c) /\ orders_bounded 3 m.
Proof.
  apply (C96_orders same same same same same ["x"] two_fields 1 same_rearrangements); [repeat constructor; intros []|discriminate| |exact two_fields_user|exact two_fields_spatial|exact two_fields_order].
  intros [H|[]]. discriminate.
Qed.
Example C96_example_one : exists v m, variance_system same same same same same ["x"] hyper = Ok v
  /\ metric_system same same same same same ["x"] hyper = Ok m
  /\ (forall q l, In q v -> averaged_in l (snd q) -> one_average ["x"] 4 l) /\ (forall q l, In q m -> averaged_in l (snd q) -> one_average ["x"] 6 l).
Proof.
  apply (C96_one_field same same same same same ["x"] hyper 4 same_rearrangements); [repeat constructor; intros []|discriminate| |exact hyper_user|exact hyper_spatial|exact hyper_order|reflexivity].
  intros [H|[]]. discriminate.
Qed.
Example C96_example_unclosed : exists us, unclosed_terms same same same same same ["x"] burgers [] = Ok us
    /\ forall l, In l us -> List.length l <= 2 /\ total_order l <= 4.
Proof.
  apply (C96_unclosed same same same same same ["x"] burgers 2 same_rearrangements); [repeat constructor; intros []|discriminate| |exact burgers_user|exact burgers_spatial|exact burgers_order].
  intros [H|[]]. discriminate.
Qed.

Print Assumptions C96_orders.
Print Assumptions C96_one_field.
Print Assumptions C96_closed.
Print Assumptions C96_unclosed.
Print Assumptions C96_sharp.
Print Assumptions C96_first_order_refuted.
