(** Vocabulary of property C107: smooth periodic fields, their values on a grid, and the exact value
    of a right-hand side. *)
From Coq Require Import List Arith Reals QArith Qreals String.
From Verif Require Import PyBase SymModel FieldFacts FDReal FDExprSpec.
Import ListNotations.
Close Scope Q_scope.
Open Scope nat_scope.
Open Scope list_scope.
Open Scope R_scope.

(** a point of space, a multi-index *)
Notation point := (nat -> R).
Notation multi := (nat -> nat).
Definition none : multi := fun _ => O.
Definition inc (i : nat) (a : multi) : multi := fun j => if Nat.eq_dec i j then S (a j) else a j.

(** [W a] is the partial derivative of multi-index [a] of the field [W none] of [n] coordinates *)
Definition derivatives_of (n : nat) (W : multi -> point -> R) : Prop :=
  forall a i p, (i < n)%nat -> derivable_pt_lim (fun s => W a (@at_coord RF p i s)) (p i) (W (inc i a) p).
(** all the derivatives exist and are bounded *)
Definition smooth (n : nat) (W : multi -> point -> R) : Prop :=
  derivatives_of n W /\ forall a, exists B, forall p, Rabs (W a p) <= B.
(** the field has the period [nth i lengths] in the coordinate [i] *)
Definition periodic (lengths : list R) (f : point -> R) : Prop :=
  forall i p L, nth_error lengths i = Some L -> f (@at_coord RF p i (p i + L)%R) = f p.

(** the point of the grid of spacings [dx] at the multi-index [js], and the array of the values *)
Definition grid_point (dx : list R) (js : list nat) : point := fun i => INR (nth i js O) * nth i dx 0.
Definition sample (dx : list R) (f : point -> R) : list nat -> R := fun js => f (grid_point dx js).
(** the largest spacing *)
Definition largest (dx : list R) : R := fold_right Rmax 0 dx.

(** the multi-index of the derivative [v] *)
Definition order_in (c : string) (v : list (string * nat)) : nat :=
  list_sum (map snd (filter (fun p => String.eqb (fst p) c) v)).
Definition orders (coords : list string) (v : list (string * nat)) : multi :=
  fun i => match nth_error coords i with Some c => order_in c v | None => O end.

(** right-hand sides without derivatives *)
Inductive pointwise : sx -> Prop :=
| pw_num q : pointwise (SNum q)
| pw_sym k s : pointwise (SSym k s)
| pw_app f l : pointwise (SApp f l)
| pw_add l : Forall pointwise l -> pointwise (SAdd l)
| pw_mul l : Forall pointwise l -> pointwise (SMul l)
| pw_pow b x : pointwise b -> pointwise x -> pointwise (SPow b x).

(** the exact value of a right-hand side at a point: [W f] the derivatives of the function [f], [kappa]
    the constants, [rpow] the power *)
Section Exact.
  Variables (coords : list string) (rpow : R -> R -> R) (W : sx -> multi -> point -> R) (kappa : sx -> R).
  Fixpoint exact (e : sx) (p : point) : R :=
    match e with
    | SNum q => Q2R q
    | SSym _ _ => kappa e
    | SDer g v => W g (orders coords v) p
    | SAdd l => fold_right Rplus 0 (map (fun x => exact x p) l)
    | SMul l => fold_right Rmult 1 (map (fun x => exact x p) l)
    | SPow b x => rpow (exact b p) (exact x p)
    | _ => W e none p
    end.

  (** right-hand sides that are polynomials in the derivatives: a power has a natural exponent, or
      contains no derivative and is bounded *)
  Inductive algebraic : sx -> Prop :=
  | al_num q : algebraic (SNum q)
  | al_sym k s : algebraic (SSym k s)
  | al_app f l : algebraic (SApp f l)
  | al_der f l v : algebraic (SDer (SApp f l) v)
  | al_add l : Forall algebraic l -> algebraic (SAdd l)
  | al_mul l : Forall algebraic l -> algebraic (SMul l)
  | al_nat b (n : nat) : algebraic b -> algebraic (SPow b (SNum (Z.of_nat n # 1)))
  | al_pow b x : pointwise b -> pointwise x -> (exists B, forall p, Rabs (rpow (exact b p) (exact x p)) <= B) ->
                 algebraic (SPow b x).
End Exact.

(** the arithmetic of numpy on arrays of the shape of the grid, entry by entry *)
Definition a_num (q : Q) : list nat -> R := fun _ => Q2R q.
Definition a_add (a b : list nat -> R) : list nat -> R := fun js => a js + b js.
Definition a_mul (a b : list nat -> R) : list nat -> R := fun js => a js * b js.
Definition a_pow (rpow : R -> R -> R) (a b : list nat -> R) : list nat -> R := fun js => rpow (a js) (b js).

(** the functions and the derivatives of the right-hand sides *)
Definition occurs (eqs : list (sx * sx)) (y : sx) : Prop := exists q, In q eqs /\ In y (subterms (snd q)).
