(** The tangent linear model of a dynamics, and what it is to be one. *)
From Coq Require Import List Reals.
From Verif Require Import PyBase Scalars FDReal ForecastModel SchemesModel SchemesSpec.
Import ListNotations.
Open Scope R_scope.

Section Tangent.
  Context {I : Type}.
  (** the entries of the arrays *)
  Variable D : I -> Prop.
  Definition size (m : R) (a : I -> R) : Prop := forall i, D i -> Rabs (a i) <= m.
  Definition apart (m : R) (a b : I -> R) : Prop := forall i, D i -> Rabs (a i - b i) <= m.

  (** [df t u] is the derivative of [f t] at [u], the error being of the second order near each state *)
  Record tangent (f : R -> (I -> R) -> I -> R) (df : R -> (I -> R) -> (I -> R) -> I -> R) : Prop := {
    tg_taylor : forall t u, exists A r, 0 < r /\ forall p m, m <= r -> size m p ->
      apart (A * m ^ 2) (f t (fun i => u i + p i)) (fun i => f t u i + df t u p i);
    tg_linear : forall t u c p q i, D i -> df t u (fun j => p j + c * q j) i = df t u p i + c * df t u q i;
    tg_bounded : forall t u, exists B, forall p m, size m p -> size (B * m) (df t u p) }.

  (** the dynamics and its tangent linear dynamics together: the state on the left, the perturbation on the right *)
  Definition both (u p : I -> R) (k : I + I) : R := match k with inl i => u i | inr i => p i end.
  Definition tangent_trend (f : R -> (I -> R) -> I -> R) (df : R -> (I -> R) -> (I -> R) -> I -> R) : @trendT RF (I + I) :=
    fun t z => Ok (both (f t (fun i => z (inl i))) (df t (fun i => z (inl i)) (fun i => z (inr i)))).
End Tangent.

(** the cells of the line *)
Definition cell (n : nat) (i : list nat) : Prop := exists j, (j < n)%nat /\ i = [O; j].

(** the scheme of the Burgers equation linearised about u: - p Du - u Dp + kappa D2 p, with centered differences *)
Definition burgers_tangent (L kappa : R) (n : nat) (t : R) (u p : list nat -> R) (i : list nat) : R :=
  match i with
  | [O; j] => let h := L / INR n in let nx := [O; (j + 1) mod n]%nat in let pv := [O; (j + n - 1) mod n]%nat in
      - p i * ((u nx - u pv) / (2 * h)) - u i * ((p nx - p pv) / (2 * h)) + kappa * ((p nx - 2 * p i + p pv) / h ^ 2)
  | _ => 0
  end.
