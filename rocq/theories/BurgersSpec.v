(** The published parametric dynamics of Burgers' equation (Pannekoucke et al. 2018) and the quality
    of its closure, written in an algebra of random fields.  This is specification, not code of /repo. *)
From Coq Require Import List QArith Qcanon String.
From Verif Require Import PyBase TreeModel PartialOrderModel Reynolds PKFModel PKFSpec.
Import ListNotations.
Close Scope Q_scope.
Close Scope Qc_scope.
Open Scope string_scope.
Open Scope list_scope.

Section Published.
  Context {A : RAlg}.
  Open Scope ra_scope.
  Notation D := (dd "x").
  Notation two := (1 + 1).
  Notation half := (cq (Q2Qc (1 # 2))).

  (** mean u, variance V, aspect s, viscosity kappa; iV and is are the inverses of V and s *)
  Definition published (kappa u V iV s is : A) : list A :=
    [ kappa * D (D u) - u * D u - half * D V;
      kappa * D (D V) - u * D V - two * V * D u - half * kappa * (D V * D V * iV) - two * kappa * V * is;
      two * s * D u - u * D s + (two + two) * kappa + kappa * D (D s) - two * kappa * (D s * D s * is)
        + kappa * (D V * D s * iV) - two * kappa * (s * D (D V) * iV) + two * kappa * (s * D V * D V * iV * iV) ].

  (** the error of the closure: the mean square of the second derivative of a normalised error with
      metric g is 3 g^2 for a Gaussian correlation of constant metric *)
  Definition defect (E : env A) : A :=
    EE (D (D (e_fn E (FEps 0))) * D (D (e_fn E (FEps 0)))) - (1 + two) * (e_fn E (FMet 0 0 0) * e_fn E (FMet 0 0 0)).
End Published.
