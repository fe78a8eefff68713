(** Property C101: the class Burgers of sympkf.dynamics. *)
From Coq Require Import List Arith ZArith QArith Qcanon Bool String Permutation Reals.
From Verif Require Import PyBase PartialOrderModel TreeModel Reynolds ReynoldsInst PKFModel PKFSpec PKFRateSpec PKFInst PKFInstMore
  BurgersModel BurgersSpec BurgersInst BurgersProofs BurgersMain.
Import ListNotations.
Close Scope R_scope.
Close Scope Q_scope.
Close Scope Qc_scope.
Close Scope Z_scope.
Open Scope nat_scope.
Open Scope string_scope.
Open Scope list_scope.

(** whatever the iteration orders, there is one unclosed term *)
Theorem C101_unclosed_term : forall enum enumD enumC enumF enumU enumS,
  rearrangements enum enumD enumC enumF enumU -> (forall l, Permutation (enumS l) l) ->
  unclosed_term enum enumD enumC enumF enumU enumS = Ok [(FEps 0, []); (FEps 0, ["x"; "x"; "x"; "x"])].
Proof. exact the_term. Qed.

(** the closed dynamics is the published one *)
Theorem C101_closed : forall enum enumD enumC enumF enumU enumS,
  rearrangements enum enumD enumC enumF enumU -> (forall l, Permutation (enumS l) l) ->
  exists sys, closed_in_aspect enum enumD enumC enumF enumU enumS = Ok sys
    /\ map fst sys = map time_derivative [FField 0; FVar 0; FAsp 0 0 0]
    /\ (forall q l, In q sys -> ~ averaged_in l (snd q))
    /\ forall (A : RAlg) (E : env A) iV is, statistics ["x"] 1 E -> tensor_is ["x"] 1 E FAsp FInvAsp 1 ->
         (e_fn E (FVar 0) * iV = 1)%ra -> (e_fn E (FAsp 0 0 0) * is = 1)%ra ->
         map (fun q => pv E (snd q)) sys = published (e_cst E 0) (e_fn E (FField 0)) (e_fn E (FVar 0)) iV (e_fn E (FAsp 0 0 0)) is.
Proof. exact closed_main. Qed.

(** the error it makes: none on mean and variance, 2 kappa s^2 times the defect on the aspect *)
Theorem C101_closure_error : forall enum enumD enumC enumF enumU enumS,
  rearrangements enum enumD enumC enumF enumU -> (forall l, Permutation (enumS l) l) ->
  exists sys, closed_in_aspect enum enumD enumC enumF enumU enumS = Ok sys
    /\ forall (A : RAlg) (E : env A), statistics ["x"] 1 E -> tensor_is ["x"] 1 E FAsp FInvAsp 1 ->
         map (fun q => pv E (snd q)) sys
         = [ rate E ["x"] dynamics (FField 0); rate E ["x"] dynamics (FVar 0);
             (rate E ["x"] dynamics (FAsp 0 0 0)
              - (1 + 1) * e_cst E 0 * (e_fn E (FAsp 0 0 0) * e_fn E (FAsp 0 0 0)) * defect E)%ra ].
Proof. exact error_main. Qed.

(** the two forms of the closure agree; the closure is true exactly when the defect is zero *)
Theorem C101_p18 : forall (A : RAlg) (E : env A), statistics ["x"] 1 E -> tensor_is ["x"] 1 E FAsp FInvAsp 1 ->
  pv E p18_aspect = pv E p18_metric
  /\ (closure_holds E [([(FEps 0, []); (FEps 0, ["x"; "x"; "x"; "x"])], p18_aspect)] <-> defect E = c0).
Proof. exact p18_main. Qed.

(** no expression in the mean, the variance, the metric, the aspect and their derivatives is a true
    closure: neither this one nor any other *)
Theorem C101_no_exact_closure : forall v, only 1 (fun f => is_random f = false) (fun _ => False) v ->
  exists (A : RAlg) (E : env A), statistics ["x"] 1 E /\ tensor_is ["x"] 1 E FAsp FInvAsp 1
    /\ EE (jprod E [(FEps 0, []); (FEps 0, ["x"; "x"; "x"; "x"])]) <> pv E v.
Proof. exact no_exact. Qed.

(** for the correlation function rho(h) = exp(-g h^2/2) of a homogeneous field the metric -rho''(0) is
    g and rho''''(0), the mean square of the second derivative, is 3 g^2 *)
Theorem C101_gaussian : forall g : R, exists r1 r2 r3 r4,
  (forall h, derivable_pt_lim (fun h => exp (- g * h² / 2)) h (r1 h)) /\ (forall h, derivable_pt_lim r1 h (r2 h))
  /\ (forall h, derivable_pt_lim r2 h (r3 h)) /\ (forall h, derivable_pt_lim r3 h (r4 h))
  /\ exp (- g * 0² / 2) = 1%R /\ r1 0%R = 0%R /\ r2 0%R = (- g)%R /\ r3 0%R = 0%R /\ r4 0%R = (3 * (g * g))%R.
Proof. exact gaussian_main. Qed.

(** a random field with metric exp(2x) whose defect is zero *)
Example C101_spiral : statistics ["x"] 1 spiral /\ tensor_is ["x"] 1 spiral FAsp FInvAsp 1 /\ defect spiral = c0
  /\ dd "x" (e_fn spiral (FMet 0 0 0)) <> c0
  /\ (e_fn spiral (FVar 0) * 1 = 1)%ra /\ (e_fn spiral (FAsp 0 0 0) * e_fn spiral (FMet 0 0 0) = 1)%ra.
Proof.
  split; [exact (world_statistics 1 h_exp h_sign)|]. split; [exact (world_aspect 1 h_exp h_sign exp_sign)|].
  split; [apply sub_zero, spiral_second|]. split.
  - intros H. apply (f_equal (fun f : rf => f (true, true) O)) in H. vm_compute in H. discriminate H.
  - split; [apply (Rmul_1_l (c_th Spirals))|]. apply S_G, (world_aspect 1 h_exp h_sign exp_sign).
Qed.
(** a random field of constant metric 1 whose defect is -2 *)
Example C101_circle : statistics ["x"] 1 (circle 0%Qc) /\ tensor_is ["x"] 1 (circle 0%Qc) FAsp FInvAsp 1 /\ defect (circle 0%Qc) <> c0.
Proof.
  split; [exact (world_statistics 0 (h_q 1) (h_q 1))|]. split; [exact (world_aspect 0 (h_q 1) (h_q 1) one_one)|].
  intros H. unfold defect in H. rewrite sub_zero, circle_second in H.
  apply (f_equal (fun f : rf => f (true, true) O)) in H. vm_compute in H. discriminate H.
Qed.
Example C101_setting : rearrangements (@rev _) (@rev _) (@rev _) (@rev _) (@rev _) /\ (forall l : list (list jet), Permutation (rev l) l)
  /\ only 1 (fun f => is_random f = false) (fun _ => False) p18_metric.
Proof.
  split; [repeat split; intros l; apply Permutation_sym, Permutation_rev|]. split; [intros l; apply Permutation_sym, Permutation_rev|].
  destruct p18_metric_value as (p & -> & [-> | ->]); intros c m a Hm Ha; cbn in Hm;
    repeat (destruct Hm as [Hm|Hm]; [injection Hm as <- <-; cbn in Ha; repeat (destruct Ha as [<-|Ha]; [reflexivity|]); destruct Ha|]); destruct Hm.
Qed.

(** the constructor: the class made by exec is not visible to the return statement *)
Theorem C101_constructor_raises : forall (V : Type) (code : res (list (string * V))) self n fact module builtins inst,
  find "ClosedPKFBurgers" module = None -> find "ClosedPKFBurgers" builtins = None ->
  init code self n fact module builtins inst = Err (match code with Ok _ => NameError | Err e => e end).
Proof. exact constructor_raises. Qed.
Theorem C101_constructor_refuted : exists (code : list (string * nat)) module builtins,
  find "ClosedPKFBurgers" code = Some 7 /\ forall self n fact inst, init (Ok code) self n fact module builtins inst = Err NameError.
Proof.
  exists [("ClosedPKFBurgers", 7)], [("symbols", 1); ("Function", 2); ("Derivative", 3); ("FDModelBuilder", 4); ("t", 5); ("Burgers", 6)], [("exec", 8)].
  split; [reflexivity|]. intros. apply (constructor_raises nat (Ok _)); reflexivity.
Qed.
(** it would work if the name were a variable of the module *)
Example C101_constructor_module : init (V := nat) (Ok []) 1 241 2 [("ClosedPKFBurgers", 7)] [] (fun cls n => Ok (cls + n)) = Ok 248.
Proof. reflexivity. Qed.

Print Assumptions C101_unclosed_term.
Print Assumptions C101_closed.
Print Assumptions C101_closure_error.
Print Assumptions C101_p18.
Print Assumptions C101_no_exact_closure.
Print Assumptions C101_gaussian.
Print Assumptions C101_constructor_raises.
Print Assumptions C101_constructor_refuted.
