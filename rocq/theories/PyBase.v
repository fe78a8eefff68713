(** Python values used by the whole model: exceptions as values, dictionaries,
    membership tests.  Nothing here is specific to one file of /repo. *)
From Coq Require Import List Arith Bool.
Import ListNotations.

(** Exceptions raised by the modelled code. [UserError n] stands for whatever a
    user-supplied callback (trend, update, ...) raises. *)
Inductive exn :=
| ValueError | KeyError | IndexError | TypeError | RuntimeError
| NotImplementedError | AssertionError | ZeroDivisionError | AttributeError | NameError
| UserError (n : nat).

Inductive res (A : Type) :=
| Ok (a : A)
| Err (e : exn).
Arguments Ok {A} a.
Arguments Err {A} e.

Definition bind {A B} (m : res A) (f : A -> res B) : res B :=
  match m with Ok a => f a | Err e => Err e end.

Declare Scope py_scope.
Delimit Scope py_scope with py.
Notation "x <- m ;; k" := (bind m (fun x => k))
  (at level 61, m at next level, right associativity) : py_scope.
Open Scope py_scope.

(** [for x in l: out.append(f(x))], stopping at the first exception. *)
Fixpoint mapM {A B} (f : A -> res B) (l : list A) : res (list B) :=
  match l with
  | [] => Ok []
  | x :: r => y <- f x ;; ys <- mapM f r ;; Ok (y :: ys)
  end.

(** A loop threading a state, stopping at the first exception. *)
Fixpoint foldM {A B} (f : B -> A -> res B) (b : B) (l : list A) : res B :=
  match l with
  | [] => Ok b
  | x :: r => b' <- f b x ;; foldM f b' r
  end.

(** Python [l[-1]]. *)
Fixpoint last_opt {A} (l : list A) : option A :=
  match l with
  | [] => None
  | [x] => Some x
  | _ :: r => last_opt r
  end.

(** Python [dict]: association list in insertion order. *)
Section Dict.
  Context {K V : Type}.
  Variable eq_dec : forall a b : K, {a = b} + {a <> b}.
  Definition dict := list (K * V).

  Fixpoint dget (k : K) (d : dict) : option V :=
    match d with
    | [] => None
    | (k', v) :: r => if eq_dec k k' then Some v else dget k r
    end.

  (** [d[k] = v]: overwrites in place, appends a new key at the end. *)
  Fixpoint dset (k : K) (v : V) (d : dict) : dict :=
    match d with
    | [] => [(k, v)]
    | (k', v') :: r => if eq_dec k k' then (k', v) :: r else (k', v') :: dset k v r
    end.

  Definition dkeys (d : dict) : list K := map fst d.
  Definition dvalues (d : dict) : list V := map snd d.

  Definition dmem (k : K) (d : dict) : bool :=
    match dget k d with Some _ => true | None => false end.

  (** [d[k]] as an expression. *)
  Definition dgetE (k : K) (d : dict) : res V :=
    match dget k d with Some v => Ok v | None => Err KeyError end.
End Dict.
Arguments dict : clear implicits.

(** [x in l] for a list, tuple or one-dimensional array. *)
Definition lmem {A} (eq_dec : forall a b : A, {a = b} + {a <> b}) (x : A) (l : list A) : bool :=
  if in_dec eq_dec x l then true else false.

(** [l[i] = v] for [0 <= i < len(l)]. *)
Fixpoint set_nth {A} (i : nat) (v : A) (l : list A) : list A :=
  match l, i with
  | [], _ => []
  | _ :: r, 0 => v :: r
  | x :: r, S i' => x :: set_nth i' v r
  end.
