(** Specification vocabulary for the integration loops, independent of the loops. *)
From Coq Require Import List Arith.
From Verif Require Import PyBase.
Import ListNotations.

(** [firsts l]: the distinct elements of [l] in order of first occurrence. *)
Section Firsts.
  Context {T : Type} (teq : forall a b : T, {a = b} + {a <> b}).
  Fixpoint firsts_from (seen : list T) (l : list T) : list T :=
    match l with
    | [] => []
    | x :: r => if in_dec teq x seen then firsts_from seen r
                else x :: firsts_from (x :: seen) r
    end.
  Definition firsts (l : list T) : list T := firsts_from [] l.
End Firsts.

Section Reach.
  Context {T D S TR : Type}.
  Variable tsub : T -> T -> D.
  Variable scheme : TR -> T -> S -> D -> res S.
  Variable trend : TR.

  (** [reach w u0 k u]: starting from [u0] at the first time of [w] and taking one
      scheme step per interval, the state at position [k] of [w] is [u]. *)
  Inductive reach : list T -> S -> nat -> S -> Prop :=
  | reach_0 : forall t w u, reach (t :: w) u 0 u
  | reach_S : forall t t' w u u1 k v,
      scheme trend t u (tsub t' t) = Ok u1 ->
      reach (t' :: w) u1 k v ->
      reach (t :: t' :: w) u (Datatypes.S k) v.

  (** the state held at the last occurrence of time [t] in the window *)
  Definition last_visit (w : list T) (u0 : S) (t : T) (u : S) : Prop :=
    exists k, nth_error w k = Some t
              /\ (forall k', k < k' -> nth_error w k' <> Some t)
              /\ reach w u0 k u.

  (** the first scheme call that raises *)
  Definition first_failure (w : list T) (u0 : S) (e : exn) : Prop :=
    exists k t t' u,
      nth_error w k = Some t /\ nth_error w (Datatypes.S k) = Some t'
      /\ reach w u0 k u /\ scheme trend t u (tsub t' t) = Err e.
End Reach.

(** [is_saved w sv t]: the user asked for time [t] ([sv] as passed by the user). *)
From Verif Require Import ForecastModel.
Definition is_saved {T} (w : list T) (sv : saved T) (t : T) : Prop :=
  match sv with
  | SNone => In t w
  | SFloat t' => t = t'
  | SIter l => In t l
  | SOther => False
  end.

(** the times the user asked for, in the order given *)
Definition saved_list {T} (w : list T) (sv : saved T) : option (list T) :=
  match sv with SNone => Some w | SFloat t => Some [t] | SIter l => Some l | SOther => None end.
