(** Specification vocabulary for the time schemes. *)
From Coq Require Import List Arith String.
From Verif Require Import PyBase Scalars SchemesModel.
Import ListNotations.

Section Spec.
  Context {K : Fld}.

  (** linear maps between array spaces *)
  Definition linear {I J} (P : arr K I -> arr K J) : Prop :=
    (forall a b, P (vadd a b) = vadd (P a) (P b))
    /\ (forall c a, P (vscale c a) = vscale c (P a)).

  (** a trend that never raises *)
  Definition pure {I} (f : K -> arr K I -> arr K I) : @trendT K I := fun t u => Ok (f t u).

  Definition ffact (n : nat) : K := fnat (fact n).

  (** sum_{k<=n} dt^k/k! A^k u : Taylor polynomial of exp(dt A) applied to u *)
  Fixpoint exp_taylor {I} (A : arr K I -> arr K I) (dt : K) (n : nat) (u : arr K I) : arr K I :=
    match n with
    | O => u
    | S m => vadd (exp_taylor A dt m u)
                  (vscale (fdiv (fpow dt (S m)) (ffact (S m))) (Nat.iter (S m) A u))
    end.

  (** sum_k c_k t^k *)
  Fixpoint peval (c : list K) (t : K) : K :=
    match c with [] => f0 | a :: r => fadd a (fmul t (peval r t)) end.
  (** the antiderivative of a polynomial: coefficient c_k becomes c_k/(k+1) of t^(k+1) *)
  Fixpoint pint_from (k : nat) (c : list K) : list K :=
    match c with [] => [] | a :: r => fdiv a (fnat (S k)) :: pint_from (S k) r end.
  Definition pint (c : list K) : list K := f0 :: pint_from 0 c.
End Spec.

(** the documented scheme names *)
Inductive names : string -> scheme_id -> Prop :=
| n_leapfrog : names "leapfrog" Leapfrog
| n_rk4 : names "rk4" Rk4
| n_rk2 : names "rk2" Rk2
| n_euler : names "euler" Euler
| n_splitting : names "splitting" Splitting.

(** [active_after init hist s]: [s] is the scheme of the last valid name of the
    history of calls, or [init] when there is none *)
Inductive active_after (init : scheme_id) : list string -> scheme_id -> Prop :=
| aa_nil : active_after init [] init
| aa_valid : forall hist n s, names n s -> active_after init (hist ++ [n]) s
| aa_invalid : forall hist n s,
    (forall s', ~ names n s') -> active_after init hist s -> active_after init (hist ++ [n]) s.

(** the three decoupled explicit schemes *)
Inductive onestep := SEuler | SRk2 | SRk4.
Definition onestep_fun {K : Fld} {I} (s : onestep) :
  @trendT K I -> K -> arr K I -> K -> res (arr K I) :=
  match s with SEuler => euler | SRk2 => rk2 | SRk4 => rk4 end.
(** order of the scheme *)
Definition onestep_order (s : onestep) : nat :=
  match s with SEuler => 1 | SRk2 => 2 | SRk4 => 4 end.
