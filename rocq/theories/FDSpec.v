(** Specification of the finite-difference stencils. *)
From Coq Require Import List Arith ZArith.
From Verif Require Import Scalars FieldFacts.
Import ListNotations.

Section Spec.
  Context {K : Fld}.
  Open Scope fld_scope.

  (** the classical central difference of order m as (displacement, weight), for grid
      spacing h: step h when m is even, step 2h when m is odd *)
  Definition central (m : nat) (h : K) : list (Z * K) :=
    let step := if Nat.even m then h else (1 + 1) * h in
    map (fun j =>
      ((if Nat.even m then (Z.of_nat j - Z.of_nat m / 2) else (2 * Z.of_nat j - Z.of_nat m))%Z,
       sgn (m - j) * fnat (binom m j) / fpow step m)) (seq 0 (S m)).

  (** polynomials: sum_k c_k x^k, and formal derivatives *)
  Fixpoint poly (c : list K) (x : K) : K :=
    match c with [] => 0 | a :: r => a + x * poly r x end.
  Fixpoint pd_from (k : nat) (c : list K) : list K :=
    match c with [] => [] | a :: r => fnat k * a :: pd_from (S k) r end.
  Definition pderiv (c : list K) : list K :=
    match c with [] => [] | _ :: r => pd_from 1 r end.
End Spec.
