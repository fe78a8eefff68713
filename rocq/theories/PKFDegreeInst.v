(** Concrete systems for C96. *)
From Coq Require Import List Arith ZArith QArith Bool String Permutation Lia.
From Verif Require Import PyBase PartialOrderModel TreeModel PKFModel PKFSpec PKFTimeSpec PKFOrderSpec PKFInst PKFInstMore PKFExplicitMain PKFReduced PKFNormal PKFMore.
Import ListNotations.
Close Scope Q_scope.
Close Scope Z_scope.
Open Scope nat_scope.
Open Scope string_scope.
Open Scope list_scope.

(** D_t u = - nu D_x^4 u *)
Definition hyper : list poly := [ [((-1)%Q, [AJet (FField 0) ["x"; "x"; "x"; "x"]; ACst 0])] ].
(** D_t u = - a D_x u - b D_y u with a, b functions of t, x, y *)
Definition transport : list poly := [ [((-1)%Q, [AJet (FExt 0 ["t"; "x"; "y"]) []; AJet (FField 0) ["x"]]); ((-1)%Q, [AJet (FExt 1 ["t"; "x"; "y"]) []; AJet (FField 0) ["y"]])] ].

Ltac each := intros p c m a Hp Hm Ha; cbn in Hp;
  repeat (destruct Hp as [<-|Hp]; [cbn in Hm; repeat (destruct Hm as [Hm|Hm]; [injection Hm as <- <-; cbn in Ha;
    repeat (destruct Ha as [<-|Ha]; [cbn; auto with arith|]); destruct Ha|]); destruct Hm|]); destruct Hp.
Lemma hyper_user : user_system hyper. Proof. each. Qed.
Lemma transport_user : user_system transport. Proof. each. Qed.

Ltac orders := apply Forall_forall; intros p Hp c m i w Hm Ha; cbn in Hp;
  repeat (destruct Hp as [<-|Hp]; [cbn in Hm; repeat (destruct Hm as [Hm|Hm]; [injection Hm as <- <-; cbn in Ha;
    repeat (destruct Ha as [Ha|Ha]; [try discriminate; try (injection Ha as <- <-; cbn; lia)|]); destruct Ha|]); destruct Hm|]); destruct Hp.
Lemma burgers_order : Forall (order_at_most 2) burgers. Proof. orders. Qed.
Lemma hyper_order : Forall (order_at_most 4) hyper. Proof. orders. Qed.
Lemma transport_order : Forall (order_at_most 1) transport. Proof. orders. Qed.
Lemma two_fields_order : Forall (order_at_most 1) two_fields. Proof. orders. Qed.
Lemma slope_order : Forall (order_at_most 1) slope. Proof. orders. Qed.

Ltac words := apply Forall_forall; intros p Hp c m a Hm Ha; cbn in Hp;
  repeat (destruct Hp as [<-|Hp]; [cbn in Hm; repeat (destruct Hm as [Hm|Hm]; [injection Hm as <- <-; cbn in Ha;
    repeat (destruct Ha as [<-|Ha]; [try exact I; try (left; reflexivity); try (right; split; [repeat constructor|]; intros x Hx; cbn in Hx; cbn; tauto)|]); destruct Ha|]); destruct Hm|]); destruct Hp.
Lemma hyper_spatial : Forall (spatial_poly ["x"]) hyper. Proof. words. Qed.
Lemma transport_spatial : Forall (spatial_poly ["x"; "y"]) transport. Proof. words. Qed.
Lemma two_fields_spatial : Forall (spatial_poly ["x"]) two_fields. Proof. words. Qed.

Lemma found (s : list pequation) N : existsb (fun q => existsb (fun l => Nat.eqb (total_order l) N) (exp_atoms (snd q))) s = true ->
  exists q l, In q s /\ averaged_in l (snd q) /\ total_order l = N.
Proof.
  intros H. apply existsb_exists in H. destruct H as (q & Hq & H). apply existsb_exists in H. destruct H as (l & Hl & H). exists q, l.
  split; [exact Hq|]. split; [apply averaged_iff, Hl|apply Nat.eqb_eq, H].
Qed.
Lemma sharp :
  (exists m q l, metric_system same same same same same ["x"] burgers = Ok m /\ In q m /\ averaged_in l (snd q) /\ total_order l = 2 + 2)
  /\ (exists v q l, variance_system same same same same same ["x"] hyper = Ok v /\ In q v /\ averaged_in l (snd q) /\ total_order l = 4)
  /\ (exists e q l, expectation_system same same same ["x"] slope = Ok e /\ In q e /\ averaged_in l (snd q) /\ total_order l = 2 * 1).
Proof.
  split; [|split].
  - destruct (metric_system same same same same same ["x"] burgers) as [m|] eqn:E; [|vm_compute in E; discriminate]. exists m.
    destruct (found m 4) as (q & l & H); [|exists q, l; split; [reflexivity|exact H]]. vm_compute in E. injection E as <-. vm_compute. reflexivity.
  - destruct (variance_system same same same same same ["x"] hyper) as [m|] eqn:E; [|vm_compute in E; discriminate]. exists m.
    destruct (found m 4) as (q & l & H); [|exists q, l; split; [reflexivity|exact H]]. vm_compute in E. injection E as <-. vm_compute. reflexivity.
  - destruct (expectation_system same same same ["x"] slope) as [m|] eqn:E; [|vm_compute in E; discriminate]. exists m.
    destruct (found m 2) as (q & l & H); [|exists q, l; split; [reflexivity|exact H]]. vm_compute in E. injection E as <-. vm_compute. reflexivity.
Qed.
Lemma first_order_open :
  (exists c q l, Forall (order_at_most 1) two_fields /\ cross_covariance_system same same same same same ["x"] two_fields = Ok (Some c)
     /\ In q c /\ averaged_in l (snd q))
  /\ (exists l, Forall (order_at_most 1) slope /\ unclosed_terms same same same same same ["x"] slope [] = Ok [l]).
Proof.
  split.
  - destruct (cross_covariance_system same same same same same ["x"] two_fields) as [[c|]|] eqn:E; [|vm_compute in E; discriminate..]. exists c.
    destruct (found c 1) as (q & l & H1 & H2 & _); [|exists q, l; split; [exact two_fields_order|]; split; [reflexivity|]; split; assumption].
    vm_compute in E. injection E as <-. vm_compute. reflexivity.
  - eexists. split; [exact slope_order|]. exact (proj1 slope_unclosed).
Qed.
