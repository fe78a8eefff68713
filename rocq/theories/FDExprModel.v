(** Finite differences of mixed derivatives and of expressions:
    /repo/src/sympkf/symbolic/finite_difference.py 4-153.

    Modelled: [get_subs_derivative] (42-68), [finite_difference_derivative] (85-98) and
    [finite_difference] (121-153).  A function is an identifier with the integer
    displacement of each of its arguments, u(x_0 + k_0*dx_0, ...); a derivative of it
    carries the (coordinate, order) pairs of [Derivative.args[1:]].
    Python sets are enumerated in an arbitrary order: [ord] below is any function that
    permutes the list of atoms it is given.

    Simplifications: the expression inside [finite_difference_derivative] is always a
    linear combination of displaced functions and derivatives, so it is a list of
    terms; [expand] (which only reorganises sums and products) is the identity on that
    list; coordinates and spacings are numbers instead of symbols. *)
From Coq Require Import List Arith ZArith Bool.
From Verif Require Import PyBase Scalars FieldFacts FornbergModel.
Import ListNotations.

(** [disp[i] += k] *)
Definition addz (i : nat) (k : Z) (disp : list Z) : list Z :=
  set_nth i (nth i disp 0%Z + k)%Z disp.

(** what is differentiated (displacements) and with respect to what *)
Notation datom := (list Z * list (nat * nat))%type.
(** equality of derivatives, for the set [derivatives] of finite_difference.py 89 (no line of its own) *)
Definition datom_dec (a b : datom) : {a = b} + {a <> b}.
Proof. repeat decide equality. Defined.

(** coefficient times a displaced function or derivative *)
Notation term K := (prod (F K) datom).

Section Terms.
  Context {K : Fld}.
  Open Scope fld_scope.
  Variables (x dx : nat -> K).

  (** finite_difference.py 42-68: the first variable is replaced by its stencil, the
      others are kept.  [derivative.args[1]] does not exist for an empty list. *)
  Definition get_subs_derivative (a : datom) : res (list (term K)) :=
    match snd a with
    | [] => Err IndexError
    | (i, o) :: rest =>
        match stencil o (x i) (dx i) with
        | None => Err ValueError
        | Some l => Ok (map (fun kw => (snd kw, (addz i (fst kw) (fst a), rest))) l)
        end
    end.

  (** [expr.subs(derivative, new).expand()] on a linear combination *)
  Definition subs_terms (a : datom) (new : list (term K)) (e : list (term K)) : list (term K) :=
    flat_map (fun t => if datom_dec (snd t) a then map (fun n => (fst t * fst n, snd n)) new else [t]) e.

  (** [expr.atoms(Derivative)] *)
  Definition deriv_atoms (e : list (term K)) : list datom :=
    nodup datom_dec (filter (fun a => negb (Nat.eqb (length (snd a)) 0)) (map snd e)).

  Variable ord : list datom -> list datom.

  (** finite_difference.py 94-96, one pass of the [for] *)
  Definition fd_round (e : list (term K)) : res (list (term K)) :=
    foldM (fun e a => new <- get_subs_derivative a ;; Ok (subs_terms a new e)) e (ord (deriv_atoms e)).

  (** finite_difference.py 87-98, the [while True]; running out of fuel is an error *)
  Fixpoint fd_loop (fuel : nat) (e : list (term K)) : res (list (term K)) :=
    match fuel with
    | O => Err RuntimeError
    | S n =>
        match deriv_atoms e with
        | [] => Ok e
        | _ => e' <- fd_round e ;; fd_loop n e'
        end
    end.

  (** finite_difference.py 70-98: the loop from the derivative itself *)
  Definition finite_difference_derivative (fuel : nat) (a : datom) : res (list (term K)) :=
    fd_loop fuel [(1, a)].
End Terms.

(** ** expressions *)
(** a derivative atom: function, displacements, multi-index *)
Notation dkey := (nat * list Z * list nat)%type.

Section Expr.
  Context {K : Fld}.
  Open Scope fld_scope.

  (** [Der u disp alpha] is a derivative atom with multi-index [alpha]; [DerOf] is the
      unevaluated derivative of an expression, which appears when sympy substitutes
      inside a derivative; [Un] is any other function or power of an expression. *)
  Inductive expr :=
  | Cst (c : K)
  | Fn (u : nat) (disp : list Z)
  | Der (u : nat) (disp : list Z) (alpha : list nat)
  | DerOf (gamma : list nat) (e : expr)
  | Add (a b : expr)
  | Mul (a b : expr)
  | Un (op : nat) (e : expr).

  (** equality of derivatives, for the set and the dictionary of finite_difference.py 124-137 *)
  Definition dkey_dec (a b : dkey) : {a = b} + {a <> b}.
  Proof. repeat decide equality. Defined.

  (** [Counter] inclusion of sympy's [Derivative._eval_subs] *)
  Fixpoint mle (a b : list nat) : bool :=
    match a, b with
    | [], [] => true
    | x :: a, y :: b => Nat.leb x y && mle a b
    | _, _ => false
    end.
  (** the remaining variables in Derivative._eval_subs of sympy (called by finite_difference.py 96, 151) *)
  Fixpoint msub (b a : list nat) : list nat :=
    match b, a with y :: b, x :: a => (y - x)%nat :: msub b a | _, _ => [] end.

  (** [expr.subs(Derivative, new)]: sympy's [Derivative._eval_subs]: the derivative
      itself is replaced, a higher derivative of the same function becomes the remaining
      derivative of [new] *)
  Fixpoint subs (d : dkey) (new : expr) (e : expr) : expr :=
    match e with
    | Cst c => Cst c
    | Fn u s => Fn u s
    | Der u s b =>
        if dkey_dec d (u, s, b) then new
        else let '(u', s', a) := d in
             if Nat.eqb u u' && (if list_eq_dec Z.eq_dec s s' then true else false) && mle a b
             then DerOf (msub b a) new
             else Der u s b
    | DerOf g e => DerOf g (subs d new e)
    | Add a b => Add (subs d new a) (subs d new b)
    | Mul a b => Mul (subs d new a) (subs d new b)
    | Un op e => Un op (subs d new e)
    end.

  (** [expr.atoms(Derivative)], finite_difference.py 124 *)
  Fixpoint ders (e : expr) : list dkey :=
    match e with
    | Cst _ | Fn _ _ => []
    | Der u s b => [(u, s, b)]
    | DerOf _ e => ders e
    | Add a b | Mul a b => ders a ++ ders b
    | Un _ e => ders e
    end.

  (** util.py 538-548 *)
  Definition total_order (d : dkey) : nat := list_sum (snd d).

  (** finite_difference.py 127-137 *)
  Definition by_order (l : list dkey) : dict nat (list dkey) :=
    fold_left (fun d a =>
        let o := total_order a in
        let d := if dmem Nat.eq_dec o d then d else dset Nat.eq_dec o [] d in
        match dget Nat.eq_dec o d with
        | Some g => dset Nat.eq_dec o (g ++ [a]) d
        | None => d
        end) l [].

  (** [list.sort(reverse=True)] on distinct integers *)
  Fixpoint insert_desc (n : nat) (l : list nat) : list nat :=
    match l with
    | [] => [n]
    | m :: r => if Nat.leb m n then n :: l else m :: insert_desc n r
    end.
  (** finite_difference.py 144-145 *)
  Definition sort_desc (l : list nat) : list nat := fold_right insert_desc [] l.

  Variables (x dx : nat -> K).
  Variable ord : list datom -> list datom.
  Variable ordE : list dkey -> list dkey.

  (** the pairs (coordinate, order) of [Derivative.args[1:]] *)
  Definition args_of (alpha : list nat) : list (nat * nat) :=
    filter (fun p => negb (Nat.eqb (snd p) 0)) (combine (seq 0 (length alpha)) alpha).

  (** the sum that finite_difference_derivative returns, finite_difference.py 98 *)
  Definition of_terms (u : nat) (l : list (term K)) : expr :=
    fold_right (fun t e => Add (Mul (Cst (fst t)) (Fn u (fst (snd t)))) e) (Cst 0) l.

  (** finite_difference.py 150: [finite_difference_derivative(derivative)] *)
  Definition fd_of (d : dkey) : res expr :=
    let '(u, s, a) := d in
    l <- finite_difference_derivative x dx ord (S (length (args_of a))) (s, args_of a) ;;
    Ok (of_terms u l).

  (** finite_difference.py 149-151, one order *)
  Definition subs_all (e : expr) (l : list dkey) : res expr :=
    foldM (fun e d => new <- fd_of d ;; Ok (subs d new e)) e l.

  (** finite_difference.py 121-153 ([orders] is [decreasing_orders]) *)
  Definition finite_difference_with (sorter : list nat -> list nat) (e : expr) : res expr :=
    let g := by_order (ordE (nodup dkey_dec (ders e))) in
    foldM (fun e o => l <- dgetE Nat.eq_dec o g ;; subs_all e l) e (sorter (dkeys g)).
  (** finite_difference.py 100-153 *)
  Definition finite_difference (e : expr) : res expr := finite_difference_with sort_desc e.
End Expr.
