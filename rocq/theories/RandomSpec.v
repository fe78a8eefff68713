(** What symbolic expressions mean: values in any algebra of random fields (Reynolds.v). *)
From Coq Require Import List Arith Bool String QArith Qcanon.
From Verif Require Import PyBase SymModel RandomModel Reynolds.
Import ListNotations.
Close Scope Q_scope. Close Scope Qc_scope.
Open Scope nat_scope.
Open Scope string_scope.
Open Scope list_scope.

(** An interpretation gives a value to symbols, functions, powers, integrals and to the
    classes the code does not know. *)
Record interp (A : RAlg) := {
  i_sym : kind -> string -> A;
  i_fun : string -> list A -> A;
  i_pow : A -> A -> A;
  i_int : A -> list (string * list A) -> A;
  i_oth : string -> list A -> A }.
Arguments i_sym {A}. Arguments i_fun {A}. Arguments i_pow {A}. Arguments i_int {A}. Arguments i_oth {A}.

Section Value.
  Context {A : RAlg} (I : interp A).

  (** D^{(x,n),(y,m),..} *)
  Fixpoint ders (v : list (string * nat)) (a : A) : A :=
    match v with [] => a | (c, n) :: r => Nat.iter n (dd c) (ders r a) end.

  Fixpoint value (e : sx) : A :=
    match e with
    | SNum q => cq (Q2Qc q)
    | SSym k s => i_sym I k s
    | SApp f l => i_fun I f (map value l)
    | SEx a => EE (value a)
    | SDer a v => ders v (value a)
    | SInt a ls => i_int I (value a) (map (fun p => (fst p, map value (snd p))) ls)
    | SAdd l => fold_right cadd c0 (map value l)
    | SMul l => fold_right cmul c1 (map value l)
    | SPow b x => i_pow I (value b) (value x)
    | SOth h l => i_oth I h (map value l)
    end.

  (** Only omega carries randomness: every other symbol is deterministic, a function of
      deterministic arguments is deterministic, and the average commutes with integrals
      over deterministic bounds. *)
  Record lawful : Prop := {
    l_sym : forall k s, SSym k s <> omega -> det (i_sym I k s);
    l_fun : forall f l, Forall det l -> det (i_fun I f l);
    l_pow : forall a b, det a -> det b -> det (i_pow I a b);
    l_npow : forall a p, i_pow I a (cq (Q2Qc (Zpos p # 1))) = cpow a (Pos.to_nat p);
    l_int : forall a ls, Forall (fun p => Forall det (snd p)) ls ->
            EE (i_int I a ls) = i_int I (EE a) ls;
    l_oth : forall h l, Forall det l -> det (i_oth I h l) }.
End Value.

(** the bounds of every integral inside the expression are not random *)
Definition bounds_ok (e : sx) : Prop :=
  forall a ls p b, In (SInt a ls) (subterms e) -> In p ls -> In b (snd p) -> israndom b = Ok false.

(** no derivative with respect to several coordinates and no multiple integral inside *)
Definition no_mixed (e : sx) : Prop :=
  (forall a v, In (SDer a v) (subterms e) -> List.length v = 1) /\
  (forall a ls, In (SInt a ls) (subterms e) -> List.length ls = 1).

(** no Expectation inside *)
Definition ex_free (e : sx) : Prop := forall a, ~ In (SEx a) (subterms e).

(** An expansion: keeps values, makes nothing random, and creates no derivative, integral
    or average of a new kind. *)
Record expansion (expand : sx -> sx) : Prop := {
  x_value : forall (A : RAlg) (I : interp A), lawful I -> forall e, value I (expand e) = value I e;
  x_det : forall e, israndom e = Ok false -> israndom (expand e) = Ok false;
  x_free : forall e, ex_free e -> ex_free (expand e);
  x_bounds : forall e, bounds_ok e -> bounds_ok (expand e);
  x_mixed : forall e, no_mixed e -> no_mixed (expand e) }.

(** Every call Expectation(..) made while evaluating Expectation(e) that meets a derivative
    or an integral standing alone meets one with a single variable. *)
Fixpoint alone_single (expand : sx -> sx) (n : nat) (e : sx) : Prop :=
  match n with
  | O => True
  | S n =>
    israndom (expand e) = Ok true ->
    match expand e with
    | SAdd l => Forall (alone_single expand n) l
    | SMul l => forall p, split_factors l = Ok p -> alone_single expand n (mul_of (snd p))
    | SDer a v => List.length v = 1 /\ alone_single expand n a
    | SInt a ls => List.length ls = 1 /\ alone_single expand n a
    | _ => True
    end
  end.

(** what the code leaves as an unevaluated average: a random expression that is not a sum,
    a derivative or an integral, and without deterministic factor *)
Record irreducible (a : sx) : Prop := {
  ir_random : israndom a = Ok true;
  ir_add : forall l, a <> SAdd l;
  ir_der : forall b v, a <> SDer b v;
  ir_int : forall b v, a <> SInt b v;
  ir_mul : forall l, a = SMul l -> forall x, In x l -> israndom x = Ok false -> x = SNum 1%Q }.

(** an expression made of the classes israndom knows, with at least one variable in each
    derivative and integral *)
Definition known (e : sx) : Prop :=
  (forall h l, ~ In (SOth h l) (subterms e)) /\
  (forall a v, In (SDer a v) (subterms e) -> v <> []) /\
  (forall a ls, In (SInt a ls) (subterms e) -> ls <> []).
