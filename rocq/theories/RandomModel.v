(** src/sympkf/symbolic/random.py: israndom, Expectation.eval, Expectation.has. *)
From Coq Require Import List Arith Bool String QArith.
From Verif Require Import PyBase SymModel.
Import ListNotations.
Close Scope Q_scope.
Open Scope nat_scope.
Open Scope string_scope.
Open Scope list_scope.
Open Scope py_scope.

(** [any(f(x) for x in l)]: stops at the first True, an exception before it propagates *)
Definition anyM {A} (f : A -> res bool) : list A -> res bool :=
  fix go l := match l with
              | [] => Ok false
              | x :: r => b <- f x ;; if b then Ok true else go r
              end.

(** israndom, random.py 175-217, on expressions.  The branches for Eq and matrices are
    [israndom_obj] below. *)
Fixpoint israndom (e : sx) : res bool :=
  match e with
  | SEx _ => Ok false                                        (* 184-187 *)
  | _ =>
    if negb (has omega e) then Ok false                      (* 188-191 *)
    else match e with
         | SApp _ l => anyM israndom l                       (* 202-204 *)
         | SSym _ _ => Ok (if sx_eq_dec e omega then true else false)   (* 205-207 *)
         | SDer a _ => israndom a                            (* 208-210 *)
         | SInt a _ => israndom a
         | SMul l | SAdd l => anyM israndom l                (* 211-213 *)
         | SPow b x => anyM israndom [b; x]
         | _ => Err NotImplementedError                      (* 216-217 *)
         end
  end.

(** Mul( *factors ) *)
Definition mul_of (l : list sx) : sx :=
  match l with [] => SNum 1%Q | [x] => x | _ => SMul l end.

(** [arg.match(scalar*random)], random.py 95-98: the factors whose israndom is False and
    the others.  Simplified: sympy's matcher may leave some deterministic factors in the
    random part, they are then separated by the recursive call; here they are separated at
    once. *)
Fixpoint split_factors (l : list sx) : res (list sx * list sx) :=
  match l with
  | [] => Ok ([], [])
  | x :: r => b <- israndom x ;; p <- split_factors r ;;
              Ok (if b then (fst p, x :: snd p) else (x :: fst p, snd p))
  end.

(** [out[scalar] != S.One], random.py 99 *)
Definition is_one (e : sx) : bool := if sx_eq_dec e (SNum 1%Q) then true else false.

Section Eval.
  (** [arg.expand()], random.py 64: sympy's expansion, a parameter of the model; the
      theorems assume of it only that it does not change the value. *)
  Variable expand : sx -> sx.

  (** Expectation.eval, random.py 48-121, on an expression.  [fuel] bounds the depth of
      the recursive calls (Python raises RecursionError). *)
  Fixpoint expectation (fuel : nat) (e : sx) : res sx :=
    match fuel with
    | O => Err RuntimeError
    | S n =>
      let a := expand e in                                              (* 64 *)
      r <- israndom a ;;
      if negb r then Ok a                                               (* 69-78 *)
      else match a with
           | SAdd l => l' <- mapM (expectation n) l ;; Ok (SAdd l')     (* 81-87 *)
           | SMul l =>                                                  (* 89-102 *)
               p <- split_factors l ;;
               if is_one (mul_of (fst p)) then Ok (SEx a)
               else m <- expectation n (mul_of (snd p)) ;;
                    Ok (SMul [mul_of (fst p); m])
           | SDer b v =>                                                (* 104-105 *)
               match v with
               | [] => Err IndexError
               | x :: _ => m <- expectation n b ;; Ok (SDer m [x])
               end
           | SInt b ls =>                                               (* 107-108 *)
               match ls with
               | [] => Err IndexError
               | x :: _ => m <- expectation n b ;; Ok (SInt m [x])
               end
           | _ => Ok (SEx a)                                            (* 120-121 *)
           end
    end.

  (** the objects other than expressions: an equation and a matrix *)
  Inductive obj := OExpr (e : sx) | OEq (l r : sx) | OMat (rows cols : nat) (l : list sx).

  (** sympy.Eq(l,r) is not an equation when it evaluates to a truth value: the parameter
      tells when. util.Eq.expand (util.py 141-143) and Eq(..) on the result (random.py 116)
      then have no args / a wrong type. *)
  Variable eq_truth : sx -> sx -> option bool.

  (** Eq(l, r), random.py 116 and util.py 143 *)
  Definition mk_eq (l r : sx) : res (sx * sx) :=
    match eq_truth l r with Some _ => Err TypeError | None => Ok (l, r) end.

  (** random.py 113-119.  Eq.expand rebuilds with Eq( *eq.args ), util.py 141-143. *)
  Definition israndom_obj (o : obj) : res bool :=
    match o with
    | OExpr e => israndom e
    | OEq l r => if has omega l || has omega r then
                   a <- israndom l ;; b <- israndom r ;; Ok (a || b)   (* 192-201 *)
                 else Ok false
    | OMat _ _ l => if existsb (has omega) l then anyM israndom l else Ok false (* 214-215 *)
    end.

  (** random.py 48-121 on an expression (81-105, 121) or an equation (113-116) *)
  Definition expectation_obj (fuel : nat) (o : obj) : res obj :=
    match o with
    | OExpr e => r <- expectation fuel e ;; Ok (OExpr r)
    | OEq l r =>
        p <- mk_eq (expand l) (expand r) ;;
        b <- israndom_obj (OEq (fst p) (snd p)) ;;
        if negb b then Ok (OEq (fst p) (snd p))
        else l' <- expectation fuel (fst p) ;; r' <- expectation fuel (snd p) ;;
             match eq_truth l' r' with
             | Some _ => Err TypeError   (* a truth value instead of an equation *)
             | None => Ok (OEq l' r')
             end
    | OMat m n l =>
        let l1 := map expand l in
        b <- israndom_obj (OMat m n l1) ;;
        if negb b then Ok (OMat m n l1)
        else l' <- mapM (expectation fuel) l1 ;; Ok (OMat m n l')
    end.
End Eval.

(** Expectation.has, random.py 123-151, for a list of patterns that are symbols or
    expressions: patterns equal to omega are dropped, the argument is searched. *)
Definition ex_has (e : sx) (patterns : list sx) : bool :=
  existsb (fun s => has s e) (filter (fun s => negb (if sx_eq_dec s omega then true else false)) patterns).

(** A concrete expansion: products and natural powers distributed over sums, at the top.
    Used to show that the hypotheses on [expand] can be met by an expansion that expands
    (sympy's also looks inside functions). *)
Definition cross (a b : list (list sx)) : list (list sx) :=
  flat_map (fun x => map (fun y => x ++ y) b) a.

(** the exponents that sympy [expand] multiplies out, called by random.py 64 *)
Definition nat_exponent (e : sx) : option nat :=
  match e with
  | SNum q => match Qnum q with
              | Zpos p => if Pos.eqb (Qden q) 1 then Some (Pos.to_nat p) else None
              | _ => None
              end
  | _ => None
  end.

(** [expand] of a natural power, called by random.py 64 *)
Fixpoint power (n : nat) (a : list (list sx)) : list (list sx) :=
  match n with O => [[]] | S m => cross a (power m a) end.

(** [expand], the terms; called by random.py 64 *)
Fixpoint terms (e : sx) : list (list sx) :=
  match e with
  | SAdd l => flat_map terms l
  | SMul l => (fix go l := match l with [] => [[]] | x :: r => cross (terms x) (go r) end) l
  | SPow b x => match nat_exponent x with
                | Some n => power n (terms b)
                | None => [[e]]
                end
  | _ => [[e]]
  end.

(** sympy Add of a list, random.py 87 *)
Definition add_of (l : list sx) : sx :=
  match l with [] => SNum 0%Q | [x] => x | _ => SAdd l end.

(** [expand], called by random.py 64 *)
Definition distribute (e : sx) : sx := add_of (map mul_of (terms e)).
