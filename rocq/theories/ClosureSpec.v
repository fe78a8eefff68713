(** What the closures should be.  Specification, not code of /repo. *)
From Coq Require Import List Arith ZArith Bool String.
From Verif Require Import PyBase PartialOrderModel PartialOrderSpec NameModel ClosureModel.
Import ListNotations.
Open Scope list_scope.
Open Scope Z_scope.

Definition factorial (n : Z) : Z := Z.of_nat (fact (Z.to_nat n)).
(** alpha! *)
Definition mfactorial (alpha : list Z) : Z := fold_right (fun a p => factorial a * p) 1 alpha.

(** ** formal power series of several variables: a coefficient for each exponent *)
Section Series.
  Variable E : Type.
  Variable mulZ : Z -> E -> E.
  (** derivative along the variable i *)
  Definition dseries (i : nat) (c : list Z -> E) : list Z -> E :=
    fun alpha => mulZ (nth i alpha 0 + 1) (c (set_nth i (nth i alpha 0 + 1) alpha)).
  Definition dpower (i : nat) (n : nat) (c : list Z -> E) : list Z -> E := Nat.iter n (dseries i) c.
  (** D^alpha, the variables from i on *)
  Fixpoint dmulti (i : nat) (alpha : list Z) (c : list Z -> E) : list Z -> E :=
    match alpha with
    | [] => c
    | a :: r => dpower i (Z.to_nat a) (dmulti (S i) r c)
    end.
  (** the value at the origin of the derivative D^alpha of the series c *)
  Definition derivative_at_zero (alpha : list Z) (c : list Z -> E) : E := dmulti 0 alpha c (repeat 0 (List.length alpha)).
End Series.

(** multiplication by integers *)
Record integer_module {E : Type} (ezero : E) (mulZ : Z -> E -> E) : Prop := {
  im_one : forall x, mulZ 1 x = x;
  im_mul : forall a b x, mulZ a (mulZ b x) = mulZ (a * b) x;
  im_zero : forall a, mulZ a ezero = ezero;
  im_free : forall a b x, mulZ a x = mulZ b x -> a = b \/ x = ezero;
}.

(** at most one coordinate is differentiated *)
Definition single (alpha : list Z) : Prop := forall i j, nth i alpha 0 <> 0 -> nth j alpha 0 <> 0 -> i = j.

(** the terms of degree lower than k with the value |alpha|! times the Taylor coefficient *)
Definition has_terms {E} (mulZ : Z -> E -> E) (n : nat) (coef : list Z -> E) (k : Z) (d : list (list Z * E)) : Prop :=
  NoDup (map fst d) /\ forall alpha v, In (alpha, v) d <-> exists p, 0 <= p < k /\ multi_index n p alpha /\ v = mulZ (factorial p) (coef alpha).

(** the highest order asked, and the order of the last closure that was computed *)
Definition needs (x : call) : Z := match x with CTaylor n => n | CClosure n | CMetric n => n + 1 end.
Definition seen (h : list call) : Z := fold_left (fun m x => Z.max m (needs x)) h 0.
Fixpoint filled_from (m f : Z) (h : list call) : Z :=
  match h with
  | [] => f
  | x :: h => filled_from (Z.max m (needs x)) (match x with CTaylor _ => f | _ => if m <? needs x then needs x else f end) h
  end.
Definition filled (h : list call) : Z := filled_from 0 0 h.
Definition no_metric (x : call) : Prop := match x with CMetric _ => False | _ => True end.

(** the equation -g = value written for the second-order term alpha in n dimensions, with the unknown s *)
Definition written (f : func) {E} (val : list Z -> E) (alpha : list Z) (q : func * func * E) : Prop :=
  let i := if Nat.eqb (List.length (spatial_coordinates f)) 1 then 0%nat else Z.to_nat (nth 0 alpha 0) in
  let j := if Nat.eqb (List.length (spatial_coordinates f)) 1 then 0%nat else Z.to_nat (nth 1 alpha 0) in
  metric_func f i j = Ok (fst (fst q)) /\ aspect_func f i j = Ok (snd (fst q)) /\ snd q = val alpha.
(** alpha is twice the coordinate i *)
Definition twice (n i : nat) : list Z := map (fun j => if Nat.eqb j i then 2 else 0) (seq 0 n).
