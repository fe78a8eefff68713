(** What subs_tree should contain.  Specification, not code of /repo. *)
From Coq Require Import List Arith ZArith QArith Bool String.
From Verif Require Import PyBase PartialOrderModel TreeModel PKFModel PKFSpec PKFTimeSpec PKFObjModel.
Import ListNotations.
Close Scope Q_scope.
Close Scope Z_scope.
Open Scope nat_scope.
Open Scope string_scope.
Open Scope list_scope.

(** pkf.fields[..].subs_tree.degree: the largest degree asked so far for the field i *)
Definition degree_now (w : world) (o i : nat) : nat :=
  match nth_error (w_objs w) o with
  | None => 0
  | Some x => t_degree (f_tree (nth i (s_fields (o_state x)) f_init))
  end.

(** E[D_v eps_i D_w eps_i], v and w non-empty words of coordinates of total length at most N *)
Definition reducible (coords : list string) (i N : nat) (l : list jet) : Prop :=
  exists v w, v <> [] /\ w <> [] /\ List.length v + List.length w <= N
    /\ spatial_word coords v /\ spatial_word coords w /\ l = jkey [(FEps i, v); (FEps i, w)].

(** E[eps_i D_w eps_i] of order 4 to N: not given by the internal closure *)
Definition irreducible (coords : list string) (i N : nat) (l : list jet) : Prop :=
  exists w, 4 <= List.length w <= N /\ spatial_word coords w /\ l = [(FEps i, []); (FEps i, w)].
