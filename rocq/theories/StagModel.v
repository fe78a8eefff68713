(** Staggered finite differences and their replacement on the regular grid:
    /repo/src/sympkf/symbolic/finite_difference.py 155-186 ([_sympy_finite_difference]), 212-229
    ([get_displacement]), 232-271 ([regularize_finite_difference]), 274-282 (of a system).

    A function is an identifier with, for each argument, the coefficient of the spacing,
    u(x_0 + c_0*dx_0, ..): what [arg.coeff(dxi)] returns, a rational number or something else.
    The coordinates found by get_function_coordinates (util.py 410-450) are those of the arguments:
    StrModel and UtilModel.  Simplifications: the functions of an expression are fields at displaced
    points (no function of a function, [Un] stands for powers and other operators);
    [_sympy_finite_difference] is modelled for a derivative with respect to one variable. *)
From Coq Require Import List Arith ZArith QArith Qcanon Bool.
From Verif Require Import PyBase Scalars FieldFacts FornbergModel.
Import ListNotations.
Close Scope Qc_scope. Close Scope Q_scope. Open Scope nat_scope.
Open Scope py_scope.

(** a coefficient: a sympy Rational (Integers are Rationals) or another expression *)
Inductive coeff := Rat (q : Qc) | Other (k : nat).
(** equality of coefficients of displacements (sympy numbers), finite_difference.py 257-262 *)
Definition coeff_dec (a b : coeff) : {a = b} + {a <> b}.
Proof. decide equality; [apply Qc_eq_dec|apply Nat.eq_dec]. Defined.
Notation fatom := (nat * list coeff)%type.
(** equality of functions, finite_difference.py 246, 269 *)
Definition fatom_dec (a b : fatom) : {a = b} + {a <> b}.
Proof. decide equality; [apply (list_eq_dec coeff_dec)|apply Nat.eq_dec]. Defined.

(** [fraction(coeff)] *)
Definition numerator (q : Qc) : Z := Qnum (this q).
(** finite_difference.py 259 *)
Definition denominator (q : Qc) : positive := Qden (this q).
(** [Integer(n)], finite_difference.py 256, 260 *)
Definition integer (n : Z) : Qc := Q2Qc (n # 1).
(** [Rational(1, denominator)], finite_difference.py 261 *)
Definition unit_fraction (d : positive) : Qc := Q2Qc (1 # d).

(** 255-265: the loop over the displacement, [new_displacement] and [scaling] *)
Definition new_displacement (disp : list coeff) : res (list coeff * Qc) :=
  foldM (fun st c =>
      match c with
      | Rat q => Ok (fst st ++ [Rat (integer (numerator q))], (snd st * unit_fraction (denominator q))%Qc)
      | Other _ => Err ValueError
      end) ([], 1%Qc) disp.

Section Expr.
  Context {K : Fld}.
  Open Scope fld_scope.
  (** a rational number as a scalar *)
  Definition fq (q : Qc) : K := fz (Qnum (this q)) / fz (Zpos (Qden (this q))).

  (** the expressions of finite_difference.py 155-186, 232-271 *)
  Inductive sexpr :=
  | Cst (c : K)
  | Fn (a : fatom)
  | Add (a b : sexpr)
  | Mul (a b : sexpr)
  | Un (op : nat) (e : sexpr).

  (** [finite.atoms(Function)], a set *)
  Fixpoint fns (e : sexpr) : list fatom :=
    match e with
    | Cst _ => []
    | Fn a => [a]
    | Add a b | Mul a b => fns a ++ fns b
    | Un _ e => fns e
    end.
  (** [finite.subs({function: new})] *)
  Fixpoint subs (a : fatom) (new : sexpr) (e : sexpr) : sexpr :=
    match e with
    | Cst c => Cst c
    | Fn b => if fatom_dec a b then new else Fn b
    | Add p q => Add (subs a new p) (subs a new q)
    | Mul p q => Mul (subs a new p) (subs a new q)
    | Un op e => Un op (subs a new e)
    end.
  (** [scaling * function], with sympy's 1*f = f *)
  Definition scaled (c : Qc) (e : sexpr) : sexpr := if Qc_eq_dec c 1%Qc then e else Mul (Cst (fq c)) e.

  (** 246-269, one turn of the loop *)
  Definition regular_function (a : fatom) : res sexpr :=
    ds <- new_displacement (snd a) ;; Ok (scaled (snd ds) (Fn (fst a, fst ds))).
  Variable ord : list fatom -> list fatom.       (* iteration order of the set *)
  Definition regularize (e : sexpr) : res sexpr :=
    foldM (fun e a => new <- regular_function a ;; Ok (subs a new e)) e (ord (nodup fatom_dec (fns e))).
  (** 274-282 *)
  Definition regularize_system (s : list (sexpr * sexpr)) : res (list (sexpr * sexpr)) :=
    mapM (fun q => r <- regularize (snd q) ;; Ok (fst q, r)) s.

  (** 181-184: [derivative.as_finite_difference(dxi, wrt=xi)] (sympy/calculus/finite_diff.py,
      [_as_finite_diff] with a step): the points x0 + k*dx for k in range(-order//2, order//2+1)
      when the order is even, x0 + k*dx/2 for k in range(-order, order+1, 2) when it is odd; the
      weights are Fornberg's. *)
  Definition raw_points (o : nat) : list Qc :=
    if Nat.eqb (o mod 2) 0
    then map integer (zrange ((- Z.of_nat o) / 2) (Z.of_nat o / 2 + 1))
    else map (fun i => Q2Qc ((2 * Z.of_nat i - Z.of_nat o) # 2)) (seq 0 (S o)).
  (** finite_difference.py 184, [derivative.as_finite_difference(dxi, wrt=xi)] *)
  Definition raw_stencil (o : nat) (xi dxi : K) : option (list (Qc * K)) :=
    let pts := raw_points o in
    match weights o (map (fun k => xi + fq k * dxi) pts) xi with
    | None => None
    | Some w => Some (combine pts w)
    end.
  (** the expression for the function [u], [disp k] being the displacements with coefficient [k] in
      the variable of the derivative *)
  Definition of_points (u : nat) (disp : coeff -> list coeff) (l : list (Qc * K)) : sexpr :=
    fold_right (fun kw e => Add (Mul (Cst (snd kw)) (Fn (u, disp (Rat (fst kw))))) e) (Cst 0) l.
  (** finite_difference.py 155-186 on one derivative in one variable *)
  Definition sympy_finite_difference (u : nat) (disp : coeff -> list coeff) (o : nat) (xi dxi : K) : res sexpr :=
    match raw_stencil o xi dxi with
    | None => Err ValueError
    | Some l => Ok (of_points u disp l)
    end.
End Expr.
