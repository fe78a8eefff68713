(** Symbolic expressions, as far as sympkf looks at them.

    sympy itself is not modelled.  What is modelled is the tree an expression is made of,
    [expr.atoms(..)], [expr.has(..)] and equality of trees.  One constructor per sympy
    class tested by the code of /repo (symbolic/random.py lines 184-217, symbolic/util.py
    lines 238-333), [SOth] stands for any other class. *)
From Coq Require Import List Arith Bool String QArith.
From Verif Require Import PyBase.
Import ListNotations.
Close Scope Q_scope.
Open Scope nat_scope.
Open Scope string_scope.
Open Scope list_scope.

(** Symbol and its subclasses: symbolic/util.py 12-16 (ScalarSymbol), 18-49
    (TrainableScalar), 52 (FunctionSymbol).  Simplified: a symbol is identified by its
    class and name (sympy also compares assumptions). *)
Inductive kind := Plain | Trainable | FunSym | ScalSym.

(** the expressions of sympy that the package builds or inspects (sympy is not in /repo; see util.py 238-333, random.py 48-217) *)
Inductive sx :=
| SNum (q : Q)                                   (* Number, in lowest terms *)
| SSym (k : kind) (s : string)                   (* Symbol *)
| SApp (f : string) (args : list sx)             (* Function other than Expectation *)
| SEx (e : sx)                                   (* Expectation, random.py 12 *)
| SDer (e : sx) (vars : list (string * nat))     (* Derivative(e,(x,n),..) *)
| SInt (e : sx) (lims : list (string * list sx)) (* Integral(e,(x,a,b),..) *)
| SAdd (l : list sx) | SMul (l : list sx) | SPow (b e : sx)
| SOth (h : string) (l : list sx).

Section Ind.
  Variable P : sx -> Prop.
  Hypothesis HNum : forall q, P (SNum q).
  Hypothesis HSym : forall k s, P (SSym k s).
  Hypothesis HApp : forall f l, Forall P l -> P (SApp f l).
  Hypothesis HEx : forall e, P e -> P (SEx e).
  Hypothesis HDer : forall e v, P e -> P (SDer e v).
  Hypothesis HInt : forall e l, P e -> Forall (fun p => Forall P (snd p)) l -> P (SInt e l).
  Hypothesis HAdd : forall l, Forall P l -> P (SAdd l).
  Hypothesis HMul : forall l, Forall P l -> P (SMul l).
  Hypothesis HPow : forall b e, P b -> P e -> P (SPow b e).
  Hypothesis HOth : forall h l, Forall P l -> P (SOth h l).
  (** induction on expressions of sympy (a proof device; the atoms of util.py 244-331 are those of subexpressions) *)
  Fixpoint sx_ind' (e : sx) : P e :=
    let fl := fix fl (l : list sx) : Forall P l :=
      match l with [] => Forall_nil _ | x :: r => Forall_cons x (sx_ind' x) (fl r) end in
    match e with
    | SNum q => HNum q
    | SSym k s => HSym k s
    | SApp f l => HApp f l (fl l)
    | SEx e => HEx e (sx_ind' e)
    | SDer e v => HDer e v (sx_ind' e)
    | SInt e l => HInt e l (sx_ind' e)
        ((fix gl (l : list (string * list sx)) : Forall (fun p => Forall P (snd p)) l :=
            match l with
            | [] => Forall_nil _
            | p :: r => Forall_cons (P := fun p => Forall P (snd p)) p (fl (snd p)) (gl r)
            end) l)
    | SAdd l => HAdd l (fl l)
    | SMul l => HMul l (fl l)
    | SPow b e => HPow b e (sx_ind' b) (sx_ind' e)
    | SOth h l => HOth h l (fl l)
    end.
End Ind.

(** equality of classes of symbols (util.py 12, 18, 52) *)
Definition kind_eq_dec (a b : kind) : {a = b} + {a <> b}.
Proof. decide equality. Defined.

(** equality of numbers of sympy, in lowest terms (util.py 257) *)
Definition q_eq_dec (a b : Q) : {a = b} + {a <> b}.
Proof. decide equality; [apply Pos.eq_dec | apply Z.eq_dec]. Defined.

(** equality of the variables of derivatives, util.py 501 *)
Definition var_eq_dec (a b : string * nat) : {a = b} + {a <> b}.
Proof. decide equality; [apply Nat.eq_dec | apply string_dec]. Defined.

(** [==] of sympy: equality of trees. *)
Fixpoint sx_eq_dec (a b : sx) {struct a} : {a = b} + {a <> b}.
Proof.
  decide equality.
  - apply q_eq_dec.
  - apply string_dec.
  - apply kind_eq_dec.
  - apply (list_eq_dec sx_eq_dec).
  - apply string_dec.
  - apply (list_eq_dec var_eq_dec).
  - apply list_eq_dec. intros [s1 l1] [s2 l2].
    destruct (string_dec s1 s2); [|right; congruence].
    destruct (list_eq_dec sx_eq_dec l1 l2); [left; congruence | right; congruence].
  - apply (list_eq_dec sx_eq_dec).
  - apply (list_eq_dec sx_eq_dec).
  - apply (list_eq_dec sx_eq_dec).
  - apply string_dec.
Defined.

(** [x in set] of Python, by equality of trees (util.py 257, 269) *)
Definition smem (x : sx) (l : list sx) : bool := if in_dec sx_eq_dec x l then true else false.

(** preorder traversal: the node, then its arguments.  The variables of a Derivative and
    of an Integral are arguments of it (inside a Tuple), the name of a function is not. *)
Fixpoint subterms (e : sx) : list sx :=
  e :: match e with
       | SNum _ | SSym _ _ => []
       | SApp _ l | SAdd l | SMul l | SOth _ l => flat_map subterms l
       | SEx e => subterms e
       | SDer e v => subterms e ++ map (fun p => SSym Plain (fst p)) v
       | SInt e l => subterms e
                     ++ flat_map (fun p => SSym Plain (fst p) :: flat_map subterms (snd p)) l
       | SPow b e => subterms b ++ subterms e
       end.

(** [atoms(Symbol)], util.py 256, 268, 308 *)
Definition is_symbol (e : sx) : bool := match e with SSym _ _ => true | _ => false end.
(** [atoms(TrainableScalar)], util.py 306, 318 *)
Definition is_trainable (e : sx) : bool := match e with SSym Trainable _ => true | _ => false end.
(** [atoms(Function)], util.py 244 *)
Definition is_function (e : sx) : bool := match e with SApp _ _ | SEx _ => true | _ => false end.
(** [atoms(Derivative)], util.py 254, 331 *)
Definition is_derivative (e : sx) : bool := match e with SDer _ _ => true | _ => false end.

(** [expr.atoms(T)]: the set of subterms of class T. *)
Definition atoms (p : sx -> bool) (e : sx) : list sx := nodup sx_eq_dec (filter p (subterms e)).

(** [expr.has(s)] for a symbol (sympy: some node of the traversal equals it). *)
Definition has (s e : sx) : bool := smem s (subterms e).

(** random.py 8, constants.py 2 *)
Definition omega : sx := SSym Plain "omega".
(** constants.py 2, util.py 163 *)
Definition time : sx := SSym Plain "t".
