(** Property C121: the parametric dynamics of coupled linear transport of several fields. *)
From Coq Require Import List Arith Ring ZArith QArith Qcanon Bool String Permutation Lia.
From Verif Require Import PyBase PartialOrderModel TreeModel Reynolds PKFModel PKFSpec PKFAlg PKFTimeSpec PKFOrderSpec PKFInst PKFInstMore PKFDegreeInst
  PKFLinearSpec PKFCoupledSpec PKFCoupled PKFCoupledMain PKFCoupledInst.
Import ListNotations.
Close Scope Q_scope.
Close Scope Qc_scope.
Close Scope Z_scope.
Open Scope nat_scope.
Open Scope string_scope.
Open Scope list_scope.

(** one equation for every mean, variance, covariance and metric entry, whose right-hand side has the value that
    the statistics of transport and reaction impose *)
Theorem C121_coupled : forall enum enumD enumC enumF enumU coords,
  rearrangements enum enumD enumC enumF enumU -> NoDup coords -> coords <> [] -> ~ In "t" coords ->
  forall deps n react source, (forall i j, given_poly (react i j)) -> (forall i, given_poly (source i)) ->
  let eqs := coupled_system coords deps n react source in
  exists m, in_metric enum enumD enumC enumF enumU coords eqs [] = Ok m
    /\ (exists fs, NoDup fs /\ map fst m = map time_derivative fs /\ forall g, In g fs <-> described coords n true FMet g)
    /\ forall (A : RAlg) (E : env A), statistics coords n E -> coupled coords deps n react source E m.
Proof. exact coupled_values. Qed.
Print Assumptions C121_coupled.

Theorem C121_means : forall enum enumD enumC enumF enumU coords,
  rearrangements enum enumD enumC enumF enumU -> NoDup coords -> coords <> [] -> ~ In "t" coords ->
  forall deps n react source, (forall i j, given_poly (react i j)) -> (forall i, given_poly (source i)) ->
  exists e, expectation_system enum enumC enumF coords (coupled_system coords deps n react source) = Ok e /\ no_average e.
Proof. exact coupled_means. Qed.
Print Assumptions C121_means.

(** equations without derivatives, linear or not: the equations of the variances and covariances contain no average *)
Theorem C121_order_zero : forall enum enumD enumC enumF enumU coords,
  rearrangements enum enumD enumC enumF enumU -> NoDup coords -> coords <> [] -> ~ In "t" coords ->
  forall eqs, user_system eqs -> Forall (spatial_poly coords) eqs -> Forall (order_at_most 0) eqs ->
  exists v c, variance_system enum enumD enumC enumF enumU coords eqs = Ok v
    /\ cross_covariance_system enum enumD enumC enumF enumU coords eqs = Ok c
    /\ no_average (v ++ optional c).
Proof. exact order_zero_closed. Qed.
Print Assumptions C121_order_zero.

(** reactions that exchange, r_ij = - r_ji: the sum of the variances is transported *)
Theorem C121_exchange : forall enum enumD enumC enumF enumU coords,
  rearrangements enum enumD enumC enumF enumU -> NoDup coords -> coords <> [] -> ~ In "t" coords ->
  forall deps n react source, (forall i j, given_poly (react i j)) -> (forall i, given_poly (source i)) ->
  let eqs := coupled_system coords deps n react source in
  exists m x, in_metric enum enumD enumC enumF enumU coords eqs [] = Ok m
    /\ (forall i, i < n -> In (time_derivative (FVar i), x i) m)
    /\ forall (A : RAlg) (E : env A), statistics coords n E -> (forall i j, i < n -> j < n -> r react E i j = (- r react E j i)%ra) ->
         among n (fun i => pv E (x i)) = (- along coords deps E (among n (fun i => e_fn E (FVar i))))%ra.
Proof. exact coupled_sum. Qed.
Print Assumptions C121_exchange.

(** ** the chemical transport model of the notebook: D_t A = - u D_x A + B, D_t B = - u D_x B - A *)
Example C121_chemical : chemical =
  [[((-1)%Q, [AJet (FExt 0 ["t"; "x"]) []; AJet (FField 0) ["x"]]); (1%Q, [AJet (FField 1) []])];
   [((-1)%Q, [AJet (FExt 0 ["t"; "x"]) []; AJet (FField 1) ["x"]]); ((-1)%Q, [AJet (FField 0) []])]].
Proof. reflexivity. Qed.
Example C121_chemical_system : exists m a b va vb c ga gb, in_metric same same same same same ["x"] chemical [] = Ok m
  /\ m = [a; b; (time_derivative (FVar 0), va); (time_derivative (FVar 1), vb); (time_derivative (FCov 0 1), c); ga; gb]
  /\ va = [((-1)%Q, [AJet (FVar 0) ["x"]; AJet (FExt 0 ["t"; "x"]) []]); (2%Q, [AJet (FCov 0 1) []])]
  /\ vb = [((-1)%Q, [AJet (FVar 1) ["x"]; AJet (FExt 0 ["t"; "x"]) []]); ((-2)%Q, [AJet (FCov 0 1) []])]
  /\ exp_atoms c = [[(FEps 0, []); (FEps 1, ["x"])]; [(FEps 0, ["x"]); (FEps 1, [])]]
  /\ exp_atoms (snd ga) = [[(FEps 0, ["x"]); (FEps 1, ["x"])]; [(FEps 0, ["x"]); (FEps 1, [])]].
Proof. exact chemical_system. Qed.

(** SymbolicPKF leaves averages in the equation of a covariance although it is closed: its right-hand side has the
    value of an expression without average, in every algebra of random fields *)
Theorem C121_closure_refuted : exists m c l, in_metric same same same same same ["x"] chemical [] = Ok m
  /\ In (time_derivative (FCov 0 1), c) m /\ averaged_in l c
  /\ (forall l', ~ averaged_in l' cov_closed)
  /\ forall (A : RAlg) (E : env A), statistics ["x"] 2 E -> pv E c = pv E cov_closed.
Proof. exact closure_refuted. Qed.
Print Assumptions C121_closure_refuted.

(** the statistics of PKFInst, two fields *)
Example C121_setting : statistics ["x"] 2 sys_env
  /\ (forall i j, i < 2 -> j < 2 -> r exchange sys_env i j = (- r exchange sys_env j i)%ra)
  /\ r exchange sys_env 0 1 = 1%ra.
Proof. split; [exact sys_statistics|]. apply exchange_values. Qed.
Example C121_oscillator : exists v c, variance_system same same same same same ["x"] oscillator = Ok v
  /\ cross_covariance_system same same same same same ["x"] oscillator = Ok (Some [c])
  /\ no_average (v ++ [c])
  /\ v = [(time_derivative (FVar 0), [(2%Q, [AJet (FCov 0 1) []])]); (time_derivative (FVar 1), [((-2)%Q, [AJet (FCov 0 1) []])])].
Proof.
  destruct (C121_order_zero same same same same same ["x"] same_rearrangements) with (eqs := oscillator) as (v & c & Hv & Hc & N).
  - repeat constructor. intros [].
  - discriminate.
  - intros [H|[]]. discriminate.
  - intros p c m a Hp Hm Ha. cbn in Hp. repeat (destruct Hp as [<-|Hp]; [cbn in Hm; destruct Hm as [H|[]]; injection H as <- <-; destruct Ha as [<-|[]]; cbn; lia|]). destruct Hp.
  - repeat constructor; intros c m a Hm Ha; (destruct Hm as [H|[]]; injection H as <- <-; destruct Ha as [<-|[]]; right; split; [repeat constructor|intros x []]).
  - repeat constructor; intros c m i w Hm Ha; (destruct Hm as [H|[]]; injection H as <- <-; destruct Ha as [H|[]]; injection H as <- <-; cbn; lia).
  - vm_compute in Hc. destruct c as [[|c0 [|]]|]; try discriminate. exists v, c0. split; [exact Hv|]. split; [|split; [exact N|]].
    + vm_compute. exact Hc.
    + vm_compute in Hv. injection Hv as <-. reflexivity.
Qed.
