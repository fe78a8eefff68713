(** Specification of multi-dimensional finite differences. *)
From Coq Require Import List Arith ZArith Bool.
From Verif Require Import PyBase Scalars FieldFacts FDSpec FDExprModel.
Import ListNotations.

Section Spec.
  Context {K : Fld}.
  Open Scope fld_scope.
  Variables (x dx : nat -> K).

  Definition at_coord (pt : nat -> K) (i : nat) (v : K) : nat -> K :=
    fun j => if Nat.eq_dec i j then v else pt j.

  (** o-th central difference along coordinate i of a function of the coordinates *)
  Definition partial (i o : nat) (U : (nat -> K) -> K) (pt : nat -> K) : K :=
    fold_right (fun kw acc => snd kw * U (at_coord pt i (pt i + fz (fst kw) * dx i)) + acc) 0
               (central o (dx i)).

  Definition partials (l : list (nat * nat)) (U : (nat -> K) -> K) : (nat -> K) -> K :=
    fold_right (fun io U => partial (fst io) (snd io) U) U l.

  (** the coordinates, counted from k, in which a derivative of orders alpha is taken, with the order *)
  Fixpoint variables (k : nat) (alpha : list nat) : list (nat * nat) :=
    match alpha with
    | [] => []
    | O :: r => variables (S k) r
    | o :: r => (k, o) :: variables (S k) r
    end.

  (** value of a linear combination of displaced functions *)
  Definition displaced (disp : list Z) : nat -> K := fun i => x i + fz (nth i disp 0%Z) * dx i.
  Definition terms_value (U : (nat -> K) -> K) (l : list (term K)) : K :=
    fold_right (fun t acc => fst t * U (displaced (fst (snd t))) + acc) 0 l.

  Definition no_derivative (l : list (term K)) : Prop := forall t, In t l -> snd (snd t) = [].

  (** every derivative atom replaced at once by [r] *)
  Fixpoint simul (r : dkey -> @expr K) (e : expr) : expr :=
    match e with
    | Cst c => Cst c
    | Fn u s => Fn u s
    | Der u s a => r (u, s, a)
    | DerOf g e => DerOf g (simul r e)
    | Add a b => Add (simul r a) (simul r b)
    | Mul a b => Mul (simul r a) (simul r b)
    | Un op e => Un op (simul r e)
    end.

  (** values: [U] gives the functions, [un] the other operators; the derivatives are
      read with [dv] *)
  Fixpoint value (U : nat -> (nat -> K) -> K) (un : nat -> K -> K)
      (dv : nat -> list Z -> list nat -> K) (e : expr) : option K :=
    match e with
    | Cst c => Some c
    | Fn u s => Some (U u (displaced s))
    | Der u s a => Some (dv u s a)
    | DerOf _ _ => None
    | Add a b => match value U un dv a, value U un dv b with Some p, Some q => Some (p + q) | _, _ => None end
    | Mul a b => match value U un dv a, value U un dv b with Some p, Some q => Some (p * q) | _, _ => None end
    | Un op e => match value U un dv e with Some p => Some (un op p) | None => None end
    end.

  Fixpoint has_DerOf (e : @expr K) : bool :=
    match e with
    | DerOf _ _ => true
    | Add a b | Mul a b => has_DerOf a || has_DerOf b
    | Un _ e => has_DerOf e
    | _ => false
    end.
End Spec.
