(** What equations mean, and the order of the entries of a matrix. *)
From Coq Require Import List Arith Bool String QArith Qcanon.
From Verif Require Import PyBase SymModel Reynolds RandomSpec UtilModel.
Import ListNotations.
Close Scope Q_scope. Close Scope Qc_scope.
Open Scope nat_scope.
Open Scope list_scope.

(** row by row: lexicographically increasing *)
Definition lex (p q : nat * nat) : Prop := fst p < fst q \/ fst p = fst q /\ snd p < snd q.

(** the terms of a sum; any other expression is its only term *)
Definition term_of (x e : sx) : Prop := match e with SAdd l => In x l | _ => x = e end.

Section Sat.
  Context {A : RAlg} (I : interp A).
  Open Scope ra_scope.

  Definition sat (o : eqo) : Prop :=
    match o with ERel l r => value I l = value I r | EBool b => b = true end.
  (** the arithmetic and the decisions of sympy are right *)
  Definition sound_arith (ar : arith) : Prop := forall a b,
    value I (a_add ar a b) = value I a + value I b /\ value I (a_mul ar a b) = value I a * value I b /\
    value I (a_sub ar a b) = value I a - value I b /\ value I (a_neg ar a) = - value I a.
  Definition sound_truth (eq_truth : sx -> sx -> option bool) : Prop := forall a b t,
    eq_truth a b = Some t -> (t = true <-> value I a = value I b).

End Sat.
