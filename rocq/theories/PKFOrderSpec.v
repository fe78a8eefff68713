(** Order of the dynamics and of the averages. *)
From Coq Require Import List Arith ZArith QArith Bool String.
From Verif Require Import PyBase PKFModel PKFSpec PKFTimeSpec.
Import ListNotations.
Close Scope Q_scope.
Open Scope nat_scope.

(** the prognostic functions are differentiated at most [k] times *)
Definition order_at_most (k : nat) (p : poly) : Prop :=
  forall c m i w, In (c, m) p -> In (AJet (FField i) w) m -> List.length w <= k.

(** the number of derivatives in a product *)
Definition total_order (l : list jet) : nat := fold_right (fun j s => List.length (snd j) + s) 0 l.

(** The averages of a system are of products of two jets, of total order at most N *)
Definition orders_bounded (N : nat) (s : list pequation) : Prop :=
  forall q l, In q s -> averaged_in l (snd q) -> List.length l = 2 /\ total_order l <= N.
(** E[eps D^w eps] with w of order 4 to N *)
Definition one_average (coords : word) (N : nat) (l : list jet) : Prop :=
  exists w, l = [(FEps 0, []); (FEps 0, w)] /\ spatial_word coords w /\ 4 <= List.length w <= N.
