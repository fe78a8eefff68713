(** Property C99: the dynamics of the standard deviations. *)
From Coq Require Import List Arith ZArith QArith Bool String Permutation Sorted Lia.
From Verif Require Import PyBase Reynolds PartialOrderModel TreeModel PKFModel PKFSpec PKFTimeSpec PKFInst PKFInstMore PKFExplicitMain PKFDegreeInst PKFStdModel PKFStdSpec PKFStdProofs.
Import ListNotations.
Close Scope Q_scope.
Close Scope Z_scope.
Open Scope nat_scope.
Open Scope string_scope.
Open Scope list_scope.

(** std_system never fails; it gives D_t std_i for each field in order, the variances are gone, the
    derivatives on the right are spatial, and the errors of a linearised dynamics satisfy it. *)
Theorem C99_std : forall enum enumD enumC enumF enumU enumA coords eqs,
  rearrangements enum enumD enumC enumF enumU -> (forall l, Permutation (enumA l) l) ->
  NoDup coords -> coords <> [] -> ~ In "t" coords -> user_system eqs -> Forall (spatial_poly coords) eqs ->
  exists sys, std_system enum enumD enumC enumF enumU enumA coords eqs = Ok sys
    /\ map fst sys = map time_derivative (map FStd (seq 0 (List.length eqs)))
    /\ (forall q, In q sys -> only (List.length eqs) (std_parameter coords (List.length eqs)) (normalised_error (List.length eqs)) (snd q)
          /\ spatial_poly coords (snd q))
    /\ forall (A : RAlg) (E : env A), statistics coords (List.length eqs) E -> error_dynamics eqs E -> std_is (List.length eqs) E ->
         forall q, In q sys -> holds E q.
Proof. exact main_std_exact. Qed.

(** Equation by equation it says the same as variance_system, of any statistics *)
Theorem C99_equivalent : forall enum enumD enumC enumF enumU enumA coords eqs,
  rearrangements enum enumD enumC enumF enumU -> (forall l, Permutation (enumA l) l) ->
  NoDup coords -> coords <> [] -> ~ In "t" coords -> user_system eqs -> Forall (spatial_poly coords) eqs ->
  exists v sys, variance_system enum enumD enumC enumF enumU coords eqs = Ok v
    /\ std_system enum enumD enumC enumF enumU enumA coords eqs = Ok sys
    /\ forall (A : RAlg) (E : env A), statistics coords (List.length eqs) E -> std_is (List.length eqs) E ->
         Forall2 (fun q q' => holds E q <-> holds E q') v sys.
Proof.
  intros enum enumD enumC enumF enumU enumA coords eqs HR HA Hc Hne Ht HU HS.
  destruct (main_std enum enumD enumC enumF enumU enumA coords eqs HR HA Hc Hne Ht HU HS) as (v & sys & H1 & H2 & _ & _ & H3). exists v, sys. auto.
Qed.

(** D_t std = kappa D_x^2 std - kappa std g - std D_x u - u D_x std for Burgers *)
Example C99_example_burgers :
  match std_system same same same same same same ["x"] burgers with
  | Ok [(l, r)] => l = time_derivative (FStd 0)
      /\ r = [((-1)%Q, [ACst 0; ASig 0; AJet (FMet 0 0 0) []]); (1%Q, [ACst 0; AJet (FStd 0) ["x"; "x"]]);
              ((-1)%Q, [ASig 0; AJet (FMean 0) ["x"]]); ((-1)%Q, [AJet (FMean 0) []; AJet (FStd 0) ["x"]])]
  | _ => False
  end.
Proof. vm_compute. split; reflexivity. Qed.
(** a solution: the statistics and errors of the world of PKFInst *)
Example C99_example_two_fields : exists sys, std_system same same same same same same ["x"] two_fields = Ok sys
  /\ List.length sys = 2 /\ forall q, In q sys -> holds sys_env q.
Proof.
  destruct (C99_std same same same same same same ["x"] two_fields same_rearrangements) as (sys & H1 & H2 & _ & H3);
    [intros l; apply Permutation_refl|constructor; [intros []|constructor]|discriminate|intros [H|[]]; discriminate|exact two_fields_user|exact two_fields_spatial|].
  exists sys. split; [exact H1|]. split; [apply (f_equal (@List.length _)) in H2; rewrite !map_length in H2; exact H2|].
  apply (H3 W sys_env sys_statistics sys_errors). intros i _. reflexivity.
Qed.

Print Assumptions C99_std.
Print Assumptions C99_equivalent.
