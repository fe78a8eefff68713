(** [finite_difference_system], /repo/src/sympkf/symbolic/finite_difference.py 189-209.
    Simplification: [Eq(lhs, rhs)] is the pair, also when sympy decides the equation. *)
From Coq Require Import List.
From Verif Require Import PyBase Scalars FDExprModel FornbergModel.
Import ListNotations.
Open Scope py_scope.

Section System.
  Context {K : Fld}.
  Variables x dx : nat -> K.
  Variable ord : list datom -> list datom.
  Variable ordE : list dkey -> list dkey.
  (** 201-207: the left-hand side is kept, the right-hand side is discretized *)
  Definition finite_difference_system (s : list (expr (K := K) * expr (K := K))) : res (list (expr * expr)) :=
    mapM (fun pde => rhs <- finite_difference x dx ord ordE (snd pde) ;; Ok (fst pde, rhs)) s.
End System.
