(** Rates of change at one instant: the statistics of errors that move at the rates given by the
    tangent-linear dynamics.  Nothing here refers to an evolution in time. *)
From Coq Require Import List Arith QArith Qcanon String.
From Verif Require Import PyBase TreeModel PartialOrderModel Reynolds PKFModel PKFSpec.
Import ListNotations.
Close Scope Q_scope.
Close Scope Qc_scope.
Open Scope nat_scope.
Open Scope string_scope.
Open Scope list_scope.

Section Rates.
  Context {A : RAlg} (E : env A) (coords : list string) (eqs : list poly).
  Open Scope ra_scope.
  Notation err i := (e_fn E (FErr i)).
  Notation eps i := (e_fn E (FEps i)).
  Notation q c := (cq (Q2Qc c)).

  (** the errors move by the first-order Taylor coefficient of the dynamics around the mean, the
      mean by the average of the dynamics up to second order *)
  Definition error_rate (i : nat) : A := taylor1 E (nth i eqs []).
  Definition mean_rate (i : nat) : A :=
    EE (taylor0 E (nth i eqs []) + taylor1 E (nth i eqs []) + taylor2_coef E (nth i eqs [])).
  (** product rule under the average *)
  Definition covariance_rate (i j : nat) : A := EE (error_rate i * err j + err i * error_rate j).
  (** sigma = sqrt V and epsilon = e / sigma *)
  Definition deviation_rate (i : nat) : A := q (1 # 2) * e_isig E i * covariance_rate i i.
  Definition normalised_rate (i : nat) : A :=
    e_isig E i * error_rate i - e_isig E i * e_isig E i * deviation_rate i * err i.
  Definition metric_rate (i a b : nat) : A :=
    EE (dd (nth a coords "") (normalised_rate i) * dd (nth b coords "") (eps i)
        + dd (nth a coords "") (eps i) * dd (nth b coords "") (normalised_rate i)).
  (** [k] times the inverse of a matrix moves by [-1/k] of the product x g' x *)
  Definition tensor_rate (f : nat -> nat -> nat -> fn) (factor : Q) (i a b : nat) : A :=
    q factor * mat_mul (List.length coords) (tensor_matrix E f i)
                 (mat_mul (List.length coords) (metric_rate i) (tensor_matrix E f i)) a b.

  Definition rate (f : fn) : A :=
    match f with
    | FField i | FMean i => mean_rate i
    | FErr i => error_rate i
    | FEps i => normalised_rate i
    | FVar i => covariance_rate i i
    | FCov i j => covariance_rate i j
    | FMet i a b => metric_rate i a b
    | FDif i a b => tensor_rate FDif (-2) i a b
    | FAsp i a b => tensor_rate FAsp (-1) i a b
    | _ => 0
    end.

  (** every equation of [sys] gives the time derivative of a function its rate of change *)
  Definition instantaneous (sys : list pequation) : Prop :=
    forall l r, In (l, r) sys -> exists f, l = time_derivative f /\ pv E r = rate f.
End Rates.

(** two systems are about the same functions, in the same order, and their right-hand sides have the
    same values in [E] *)
Definition same_values {A : RAlg} (E : env A) (s s' : list pequation) : Prop :=
  map fst s = map fst s' /\ map (fun q => pv E (snd q)) s = map (fun q => pv E (snd q)) s'.
