(** The code of a derivative in a generated finite-difference class, as run by the method trend: the
    composition of /repo/src/sympkf/symbolic/finite_difference.py 85-98 (FDExprModel), 289-373 (the
    displaced functions become arrays, the spacings self.dx: StrModel) and
    templates/body_FDModelBuilder.py 75-80 (GridModel).

    The differentiated function depends on all the coordinates of the class, in their order.
    [d] is the cache of index when the line is reached. *)
From Coq Require Import List Arith ZArith String.
From Verif Require Import PyBase Scalars FDExprModel GridModel.
Import ListNotations.
Open Scope list_scope.
Open Scope py_scope.

Section Code.
  Context {K : Fld}.
  Variables (x : nat -> K) (ord : list datom -> list datom).
  Variables (coords : list string) (g : @grid K) (d : cache).
  (** self.dx[self.coordinates.index(c)] *)
  Definition spacing (i : nat) : K := nth i (g_dx g) f0.
  (** the positions of the variables among the coordinates: [self.coordinates.index] of model_builder_FD.py 12 and templates/body_FDModelBuilder.py 79 *)
  Definition variables (v : list (string * nat)) : res (list (nat * nat)) :=
    mapM (fun p => match pos_of (fst p) coords with Some i => Ok (i, snd p) | None => Err ValueError end) v.
  (** model_builder_FD.py 14-25 with finite_difference.py 70-98, 345-373: the value of the code of a derivative *)
  Definition derivative_code (v : list (string * nat)) (a : @arr K) : res (@arr K) :=
    ds <- variables v ;;
    l <- finite_difference_derivative x spacing ord (S (List.length ds)) (repeat 0%Z (List.length coords), ds) ;;
    fst (eval_terms coords (g_shape g) d a (map (fun t => (fst t, fst (snd t))) l)).
End Code.
