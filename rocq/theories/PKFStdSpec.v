From Coq Require Import List Arith ZArith QArith Bool String.
From Verif Require Import PyBase Reynolds PKFModel PKFSpec.
Import ListNotations.
Close Scope Q_scope.
Open Scope nat_scope.

(** The functions of the dynamics of the standard deviations: those of the dynamics of the variances
    but the variances, and the standard deviations. *)
Definition std_parameter (coords : list string) (n : nat) (f : fn) : Prop :=
  (deterministic_parameter no_tensor coords n f /\ forall i, f <> FVar i) \/ exists i, i < n /\ f = FStd i.
(** the function std is the square root of the variance *)
Definition std_is {A : RAlg} (n : nat) (E : env A) : Prop := forall i, i < n -> e_fn E (FStd i) = e_sig E i.
