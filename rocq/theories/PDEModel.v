(** src/sympkf/symbolic/util.py: PDESystem (159-333), get_trend (493-505),
    get_derivative_partial_orders and get_total_order (507-548), TrainableScalar (18-49). *)
From Coq Require Import List Arith Bool String QArith.
From Verif Require Import PyBase SymModel.
Import ListNotations.
Close Scope Q_scope.
Open Scope nat_scope.
Open Scope string_scope.
Open Scope list_scope.
Open Scope py_scope.

(** Eq(lhs,rhs); [equation.args] are the two sides *)
Definition equation := (sx * sx)%type.

(** [equation.atoms(T)]: the traversal of the equation, its two sides one after the other *)
Definition eq_atoms (p : sx -> bool) (q : equation) : list sx :=
  nodup sx_eq_dec (filter p (subterms (fst q) ++ subterms (snd q))).

(** [set.update], [set.difference] *)
Definition union_all (l : list (list sx)) : list sx := nodup sx_eq_dec (List.concat l).
(** Python [set.difference], util.py 267, 282-283, 308 *)
Definition difference (a b : list sx) : list sx := filter (fun x => negb (smem x b)) a.

(** [expr.args].  The variables of derivatives and integrals are Tuples. *)
Definition args (e : sx) : list sx :=
  match e with
  | SNum _ | SSym _ _ => []
  | SApp _ l | SAdd l | SMul l | SOth _ l => l
  | SEx a => [a]
  | SDer a v => a :: map (fun p => SOth "Tuple" [SSym Plain (fst p); SNum (Z.of_nat (snd p) # 1)%Q]) v
  | SInt a v => a :: map (fun p => SOth "Tuple" (SSym Plain (fst p) :: snd p)) v
  | SPow b x => [b; x]
  end.

(** [derivative.args[1].atoms(Symbol)], util.py 256: the first variable *)
Definition first_variable (d : sx) : res string :=
  match d with SDer _ ((c, _) :: _) => Ok c | _ => Err IndexError end.

(** the attributes set by util.py 165-195 *)
Record pdes := {
  s_functions : list sx; s_prognostic : list sx; s_constant : list sx; s_exogenous : list sx;
  s_coordinates : list sx; s_spatial : list sx; s_trainable : list sx; s_constants : list sx;
  s_derivatives : list sx; s_max_order : nat }.

(** [derivative.derivative_count] *)
Definition derivative_count (d : sx) : nat :=
  match d with SDer _ v => fold_right (fun p n => snd p + n) 0 v | _ => 0 end.

Section System.
  (** iteration order of a Python set: any rearrangement *)
  Variable enum : list sx -> list sx.

  (** 238-246 *)
  Definition get_functions (eqs : list equation) : list sx :=
    union_all (map (eq_atoms is_function) eqs).

  (** 248-260 *)
  Definition prognostic_of (q : equation) : res (list sx) :=
    foldM (fun acc d => c <- first_variable d ;;
                        if String.eqb c "t" then
                          match d with SDer f _ => Ok (acc ++ [f]) | _ => Ok acc end
                        else Ok acc)
          [] (enum (eq_atoms is_derivative q)).
  (** util.py 248-260 [_get_prognostic_functions] *)
  Definition get_prognostic (eqs : list equation) : res (list sx) :=
    l <- mapM prognostic_of eqs ;; Ok (List.concat l).

  (** 262-272: [variable.args[0].atoms(Symbol)] *)
  Definition first_arg (f : sx) : res sx :=
    match args f with [] => Err IndexError | a :: _ => Ok a end.
  (** util.py 262-272 [_get_constant_functions] *)
  Definition get_constant (functions prognostic : list sx) : res (list sx) :=
    foldM (fun acc f => a <- first_arg f ;;
                        Ok (if smem time (atoms is_symbol a) then acc else acc ++ [f]))
          [] (enum (difference functions prognostic)).

  (** 274-285 *)
  Definition get_exogenous (functions prognostic constant : list sx) : list sx :=
    difference (difference functions prognostic) constant.

  (** 287-294 *)
  Definition get_coordinates (prognostic : list sx) : list sx :=
    fold_left (fun coordinates f =>
                 if Nat.ltb (List.length coordinates) (List.length (args f)) then args f else coordinates)
              prognostic [].

  (** 296-298 *)
  Definition get_spatial (coordinates : list sx) : res (list sx) :=
    match coordinates with
    | [] => Err IndexError
    | c :: r => if sx_eq_dec c time then Ok r else Err AssertionError
    end.

  (** 312-320, 300-310, 322-333 *)
  Definition get_trainable (eqs : list equation) : list sx :=
    union_all (map (fun q => atoms is_trainable (snd q)) eqs).
  (** util.py 300-310 [_get_constants] *)
  Definition get_constants (eqs : list equation) (coordinates : list sx) : list sx :=
    union_all (map (fun q => difference (difference (atoms is_symbol (snd q)) coordinates)
                                        (atoms is_trainable (snd q))) eqs).
  (** util.py 322-333 [_get_spatial_derivatives] *)
  Definition get_derivatives (eqs : list equation) : list sx :=
    union_all (map (fun q => atoms is_derivative (snd q)) eqs).

  (** __init__, 165-195 *)
  Definition pde_system (eqs : list equation) : res pdes :=
    let functions := get_functions eqs in
    prognostic <- get_prognostic eqs ;;
    constant <- get_constant functions prognostic ;;
    let exogenous := get_exogenous functions prognostic constant in
    let coordinates := get_coordinates prognostic in
    spatial <- get_spatial coordinates ;;
    let trainable := get_trainable eqs in
    let constants := get_constants eqs coordinates in
    let derivatives := get_derivatives eqs in
    Ok {| s_functions := functions; s_prognostic := prognostic; s_constant := constant;
          s_exogenous := exogenous; s_coordinates := coordinates; s_spatial := spatial;
          s_trainable := trainable; s_constants := constants; s_derivatives := derivatives;
          s_max_order := fold_right Nat.max 0 (map derivative_count derivatives) |}.
End System.

(** get_trend, 493-505: a single derivative, or the set of them *)
Definition is_trend (d : sx) : bool :=
  match d with
  | SDer _ ((c, n) :: _) => String.eqb c "t" && Nat.eqb n 1
  | _ => false
  end.
(** util.py 493-505 *)
Definition get_trend (q : equation) : sx + list sx :=
  match filter is_trend (eq_atoms is_derivative q) with
  | [d] => inl d
  | l => inr l
  end.

(** get_derivative_partial_orders, 507-536, for the variables [derivative.args[1:]] (Tuples,
    so the first branch is never taken): a dict, a later entry overwrites an earlier one *)
Definition partial_orders (v : list (string * nat)) : res (dict string nat) :=
  match v with
  | [] => Err IndexError
  | _ => Ok (fold_left (fun d p => dset string_dec (fst p) (snd p) d) v [])
  end.
(** 538-548 *)
Definition total_order (v : list (string * nat)) : res nat :=
  d <- partial_orders v ;; Ok (fold_right Nat.add 0 (dvalues d)).

(** TrainableScalar.__new__, 41-49.  Symbol.__new__ of sympy is memoised: constructing two
    symbols of the same class, name and assumptions gives one object, whose attributes are
    then set again.  [store] maps a (name, assumptions) pair to the attributes of the
    object; [A] is the type of the attributes (init_value, use_bias, mean, stddev, seed,
    wl2). *)
Section Trainable.
  Variable A : Type.
  (** the key of the memoised constructor: name and assumptions, util.py 41-42 *)
  Definition tkey := (string * list (string * bool))%type.
  (** equality of these keys (util.py 41-42) *)
  Definition tkey_eq_dec (a b : tkey) : {a = b} + {a <> b}.
  Proof. repeat decide equality. Defined.
  (** util.py 41-49 *)
  Definition trainable_new (k : tkey) (attributes : A) (store : dict tkey A) : tkey * dict tkey A :=
    (k, dset tkey_eq_dec k attributes store).
  (** reading the attributes set by util.py 43-48 *)
  Definition trainable_get (k : tkey) (store : dict tkey A) : res A :=
    match dget tkey_eq_dec k store with Some a => Ok a | None => Err AttributeError end.
End Trainable.
