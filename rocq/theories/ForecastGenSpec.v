(** Vocabulary for one-shot iterators of saved times. *)
From Coq Require Import List Arith.
Import ListNotations.

(** [l] is obtained from [g] by deleting elements *)
Inductive subsequence {T} : list T -> list T -> Prop :=
| sub_nil : forall g, subsequence [] g
| sub_take : forall x l g, subsequence l g -> subsequence (x :: l) (x :: g)
| sub_skip : forall x l g, subsequence l g -> subsequence l (x :: g).

(** the first [j] times of the window are given by the iterator in this order, and no more *)
Definition served {T} (w g : list T) (j : nat) : Prop :=
  j <= length w /\ subsequence (firstn j w) g /\ forall j', j < j' -> j' <= length w -> ~ subsequence (firstn j' w) g.
