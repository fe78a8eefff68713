(** src/sympkf/symbolic/util.py: upper_triangle (55-71), Eq (74-156),
    get_coordinates / get_function_coordinates (371-450), CoordinateSystem (550-590),
    CompareEquation / CompareExpression (593-636). *)
From Coq Require Import List Arith Bool String Ascii QArith.
From Verif Require Import PyBase SymModel PDEModel.
Import ListNotations.
Close Scope Q_scope.
Open Scope nat_scope.
Open Scope string_scope.
Open Scope list_scope.
Open Scope py_scope.

(** ** upper_triangle, 55-61 and 63-71 (the same loops).  A matrix is its shape and its
    entries; range(i,m) is empty when i >= m. *)
Definition upper_triangle {A} (n m : nat) (M : nat -> nat -> A) : list A :=
  flat_map (fun i => map (fun j => M i j) (seq i (m - i))) (seq 0 n).

(** ** Eq.  sympy.Eq(l,r) is a relation, or a truth value when it can decide the equation.
    [EBool b] is BooleanTrue/BooleanFalse, whose [args] is the empty tuple. *)
Inductive eqo := ERel (l r : sx) | EBool (b : bool).

(** the arithmetic of sympy expressions: left open, RandomSpec gives values *)
Record arith := {
  a_add : sx -> sx -> sx; a_mul : sx -> sx -> sx; a_sub : sx -> sx -> sx; a_neg : sx -> sx }.

Section Eq.
  Variable ar : arith.
  Variable eq_truth : sx -> sx -> option bool.

  (** Eq(l, r), a truth value when sympy decides it; util.py 116-143 *)
  Definition Eq (l r : sx) : eqo :=
    match eq_truth l r with Some b => EBool b | None => ERel l r end.

  (** 115-116: eq * alpha, and 121-122 eq *= alpha *)
  Definition eq_mul (q : sx * sx) (alpha : sx) : eqo := Eq (a_mul ar alpha (fst q)) (a_mul ar alpha (snd q)).
  (** [eq.args[k]]: a truth value has no args *)
  Definition eq_args (o : eqo) : res (sx * sx) :=
    match o with ERel l r => Ok (l, r) | EBool _ => Err IndexError end.
  (** 118-120: eq *= equation.  isinstance(alpha, Eq) is False of a truth value, the product
      of an expression by a truth value is a TypeError. *)
  Definition eq_imul_eq (q : sx * sx) (o : eqo) : res eqo :=
    match o with
    | ERel l r => Ok (Eq (a_mul ar (fst q) l) (a_mul ar (snd q) r))
    | EBool _ => Err TypeError
    end.
  (** 124-125 *)
  Definition eq_add (q : sx * sx) (o : eqo) : res eqo :=
    p <- eq_args o ;; Ok (Eq (a_add ar (fst q) (fst p)) (a_add ar (snd q) (snd p))).
  (** util.py 127-128 *)
  Definition eq_neg (q : sx * sx) : eqo := Eq (a_neg ar (fst q)) (a_neg ar (snd q)).
  (** util.py 130-131 *)
  Definition eq_sub (q : sx * sx) (o : eqo) : res eqo :=
    p <- eq_args o ;; Ok (Eq (a_sub ar (fst q) (fst p)) (a_sub ar (snd q) (snd p))).

  (** 133-143: subs, doit, expand.  [op] is what super() does to each side; the relation is
      rebuilt, then built once more from its args: Eq() without arguments is a TypeError. *)
  Definition eq_map (op : sx -> sx) (q : sx * sx) : res eqo :=
    match Eq (op (fst q)) (op (snd q)) with
    | ERel l r => Ok (Eq l r)
    | EBool _ => Err TypeError
    end.

  (** 145-156: isolate.  sympy.solve is modelled on equations affine in the unknown [x]
      (coefficients free of x); elsewhere [None]: not modelled. *)
  Definition free_of (x e : sx) : bool := negb (smem x (subterms e)).

  (** sympy.solve (util.py 156) on equations affine in the unknown: e = a x + b *)
  Fixpoint affine (x e : sx) : option (sx * sx) :=
    if sx_eq_dec e x then Some (SNum 1, SNum 0)
    else if free_of x e then Some (SNum 0, e)
    else match e with
         | SAdd l =>
             (fix go (l : list sx) : option (sx * sx) :=
                match l with
                | [] => Some (SNum 0, SNum 0)
                | y :: r => match affine x y, go r with
                            | Some (a, b), Some (a', b') => Some (SAdd [a; a'], SAdd [b; b'])
                            | _, _ => None
                            end
                end) l
         | SMul l =>
             (fix go (l : list sx) : option (sx * sx) :=
                match l with
                | [] => None
                | y :: r => if free_of x y then
                              match go r with Some (a, b) => Some (SMul [y; a], SMul [y; b]) | None => None end
                            else if forallb (free_of x) r then
                              match affine x y with
                              | Some (a, b) => Some (SMul (a :: r), SMul (b :: r)) | None => None end
                            else None
                end) l
         | _ => None
         end.

  (** sympy.solve, util.py 156 *)
  Definition solve (q : sx * sx) (x : sx) : option (list sx) :=
    let e := SAdd [fst q; SMul [SNum (-1); snd q]] in
    if free_of x e then Some []
    else match affine x e with
         | Some (a, b) => Some [SMul [SNum (-1); b; SPow a (SNum (-1))]]
         | None => None
         end.

  (** util.py 145-156 *)
  Definition isolate (q : sx * sx) (x : sx) : option (res eqo) :=
    match solve q x with
    | None => None
    | Some [] => Some (Err IndexError)
    | Some (s :: _) => Some (Ok (Eq x s))
    end.
End Eq.

(** ** CoordinateSystem *)

(** Derivative(e, c): zero when e does not contain c; a derivative of a derivative is one
    derivative, its variables sorted *)
Fixpoint bump (c : string) (v : list (string * nat)) : list (string * nat) :=
  match v with
  | [] => [(c, 1)]
  | (d, n) :: r => if String.eqb d c then (d, S n) :: r
                   else match String.compare c d with Lt => (c, 1) :: v | _ => (d, n) :: bump c r end
  end.
(** sympy Derivative(e, c), util.py 569, 576 *)
Definition derivative (e : sx) (c : string) : sx :=
  if smem (SSym Plain c) (subterms e) then
    match e with SDer f v => SDer f (bump c v) | _ => SDer e [(c, 1)] end
  else SNum 0.

(** 578-585; the coordinates are symbols *)
Definition is_compatible (coords : list string) (f : sx) : bool :=
  forallb (fun c => smem (SSym Plain c) (args f)) coords.
(** 587-590 *)
Definition check_compatible (coords : list string) (e : sx) : res unit :=
  if forallb (is_compatible coords) (atoms is_function e) then Ok tt else Err ValueError.
(** 565-569 *)
Definition gradient (coords : list string) (e : sx) : res (list sx) :=
  _ <- check_compatible coords e ;; Ok (map (derivative e) coords).
(** 571-576; the sum is left as a sum of its terms (sympy simplifies it) *)
Definition div (coords : list string) (v : list sx) : res sx :=
  _ <- mapM (check_compatible coords) v ;;
  Ok (SAdd (map (fun p => derivative (fst p) (snd p)) (combine v coords))).

(** ** CompareExpression, 602-636.  Sets are lists without repetition. *)
Definition terms_of (e : sx) : list sx :=
  nodup sx_eq_dec (match e with SAdd l => l | _ => [e] end).
Section Compare.
  Variable expand : sx -> sx.
  (** util.py 612-625 *)
  Definition sets (e1 e2 : sx) : list sx * list sx := (terms_of (expand e1), terms_of (expand e2)).
  (** util.py 627-631 *)
  Definition common (e1 e2 : sx) : list sx :=
    filter (fun x => smem x (snd (sets e1 e2))) (fst (sets e1 e2)).
  (** util.py 633-636 *)
  Definition specific (e1 e2 : sx) : list sx * list sx :=
    (difference (fst (sets e1 e2)) (common e1 e2), difference (snd (sets e1 e2)) (common e1 e2)).
  (** CompareEquation, 593-599 *)
  Definition compare_lhs (q1 q2 : equation) := (common (fst q1) (fst q2), specific (fst q1) (fst q2)).
  (** util.py 599 *)
  Definition compare_rhs (q1 q2 : equation) := (common (snd q1) (snd q2), specific (snd q1) (snd q2)).
End Compare.

(** ** get_coordinates (371-408) and get_function_coordinates (410-450) on a function: the
    same loop.  A symbol is its name here.  [enum]: iteration order of the set of symbols. *)
Section Coordinates.
  Variable enum : list sx -> list sx.
  (** [str] of a symbol, util.py 397, 439 *)
  Definition name_of (e : sx) : string := match e with SSym _ s => s | _ => "" end.
  (** [str(xi)[0] == 'd']: IndexError for the empty name *)
  Definition starts_d (s : string) : res bool :=
    match s with EmptyString => Err IndexError | String c _ => Ok (Ascii.eqb c "d"%char) end.
  (** util.py 393-406, 435-448 *)
  Definition coordinate_of (arg : sx) : res (sx * sx) :=
    match enum (atoms is_symbol arg) with
    | [xi; dxi] => b <- starts_d (name_of xi) ;; Ok (if b then (dxi, xi) else (xi, dxi))
    | [xi] => Ok (xi, SSym Plain (append "d" (name_of xi)))
    | _ => Err ValueError
    end.
  (** util.py 410-450 *)
  Definition get_function_coordinates (f : sx) : res (list sx * list sx) :=
    if is_function f then l <- mapM coordinate_of (args f) ;; Ok (map fst l, map snd l)
    else Err ValueError.
  (** get_coordinates has no test of the class *)
  Definition get_coordinates (f : sx) : res (list sx * list sx) :=
    l <- mapM coordinate_of (args f) ;; Ok (map fst l, map snd l).
End Coordinates.
