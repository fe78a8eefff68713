(** Several fields transported by one wind and coupled by linear reactions, and the parametric dynamics
    they have.  This is specification, not code of /repo. *)
From Coq Require Import List Arith QArith Qcanon String.
From Verif Require Import PyBase Reynolds PKFModel PKFSpec PKFTimeSpec PKFLinearSpec.
Import ListNotations.
Close Scope Q_scope.
Close Scope Qc_scope.
Open Scope nat_scope.
Open Scope string_scope.
Open Scope list_scope.

(** an expression of given functions and constants: no prognostic function *)
Definition given_poly (p : poly) : Prop :=
  forall c m a, In (c, m) p -> In a m -> match a with AJet (FExt _ _) _ | ACst _ => True | _ => False end.

(** ** D_t u_i = - w . grad u_i + sum_j r_ij u_j + q_i, for [n] fields.  Component [k] of [w] is a function of
    the coordinates [deps k]; [react i j] and [source i] are the expressions r_ij and q_i. *)
Section Coupled.
  Variables (coords : list string) (deps : nat -> list string) (n : nat) (react : nat -> nat -> poly) (source : nat -> poly).
  Notation d := (List.length coords).
  Definition coupled_rhs (i : nat) : poly :=
    map (fun k => ((-1)%Q, [AJet (FExt k (deps k)) []; AJet (FField i) [nth k coords ""]])) (seq 0 d)
    ++ flat_map (fun j => map (fun t => (fst t, snd t ++ [AJet (FField j) []])) (react i j)) (seq 0 n)
    ++ source i.
  Definition coupled_system : list poly := map coupled_rhs (seq 0 n).

  Context {A : RAlg} (E : env A).
  Open Scope ra_scope.
  Definition among (f : nat -> A) : A := asum (map f (seq 0 n)).
  Definition r (i j : nat) : A := pv E (react i j).
  Notation along := (along coords deps E).
  Notation over := (over coords).
  Notation shear := (shear coords deps E).
  (** the symmetric matrix of the covariances *)
  Definition cov (i j : nat) : A :=
    e_fn E (if Nat.eqb i j then FVar i else if Nat.ltb i j then FCov i j else FCov j i).
  (** the error of field [j] in units of the standard deviation of field [i], and its regression on the
      error of field [i] *)
  Definition relative (i j : nat) : A := e_isig E i * e_fn E (FErr j).
  Definition regression (i j : nat) : A := e_isig E i * e_isig E i * cov i j.

  (** transport and, for the covariances, R V + V R^T; the metric of field [i] changes by the parts of the
      other errors that are not explained by its own *)
  Definition coupled_rate (f : fn) : A :=
    match f with
    | FField i => - along (e_fn E (FField i)) + among (fun j => r i j * e_fn E (FField j)) + pv E (source i)
    | FVar i => - along (e_fn E (FVar i)) + among (fun k => r i k * cov k i + r i k * cov i k)
    | FCov i j => - along (e_fn E (FCov i j)) + among (fun k => r i k * cov k j + r j k * cov i k)
    | FMet i a b =>
        - along (e_fn E (FMet i a b))
        - over (fun k => shear a k * tensor_matrix E FMet i k b + shear b k * tensor_matrix E FMet i a k)
        + among (fun j => EE (dd (nth a coords ""%string) (r i j * relative i j) * dd (nth b coords ""%string) (e_fn E (FEps i)))
                          + EE (dd (nth a coords ""%string) (e_fn E (FEps i)) * dd (nth b coords ""%string) (r i j * relative i j))
                          - (r i j * regression i j + r i j * regression i j) * e_fn E (FMet i a b))
    | _ => 0
    end.
  Definition coupled (s : list pequation) : Prop :=
    forall l x, In (l, x) s -> exists f, l = time_derivative f /\ pv E x = coupled_rate f.
End Coupled.
