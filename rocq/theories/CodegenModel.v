(** src/sympkf/symbolic/model_builder.py (pseudo-algebraic system and trend code, 226-280) and
    the method trend of the generated class (templates/footer.py 2-62), as a program that can
    be run.  Printing of sympy expressions and parsing by Python are not modelled: a printed
    expression is the expression. *)
From Coq Require Import List Arith Bool String QArith.
From Verif Require Import PyBase SymModel PDEModel StrModel.
Import ListNotations.
Close Scope Q_scope.
Open Scope nat_scope.
Open Scope string_scope.
Open Scope list_scope.
Open Scope py_scope.

(** ** expr.subs(old, new), sympy.  A derivative of which [old] is a partial derivative becomes
    the derivative of [new] by the remaining variables (Derivative._eval_subs); [new] is
    always a symbol here, so that this is 0.  Simplified: nothing is simplified while
    rebuilding, the variables of derivatives and integrals are left alone. *)
Definition count (c : string) (v : list (string * nat)) : nat :=
  fold_right (fun p n => if String.eqb (fst p) c then snd p + n else n) 0 v.
(** sympy Derivative._eval_subs (called by model_builder.py 250): the variables of one derivative are among those of the other *)
Definition sub_count (v w : list (string * nat)) : bool :=
  forallb (fun p => Nat.leb (count (fst p) v) (count (fst p) w)) v.

(** sympy [rhs.subs(old, new)], called by model_builder.py 250, 254, 258 *)
Fixpoint subs1 (old new e : sx) : sx :=
  if sx_eq_dec e old then new
  else match e with
       | SNum _ | SSym _ _ => e
       | SApp f l => SApp f (map (subs1 old new) l)
       | SEx a => SEx (subs1 old new a)
       | SDer g v =>
           match old with
           | SDer g' v' => if (if sx_eq_dec g g' then true else false) && sub_count v' v then SNum 0
                           else SDer (subs1 old new g) v
           | _ => SDer (subs1 old new g) v
           end
       | SInt g v => SInt (subs1 old new g) (map (fun p => (fst p, map (subs1 old new) (snd p))) v)
       | SAdd l => SAdd (map (subs1 old new) l)
       | SMul l => SMul (map (subs1 old new) l)
       | SPow b x => SPow (subs1 old new b) (subs1 old new x)
       | SOth h l => SOth h (map (subs1 old new) l)
       end.

(** ** names.  MetaFunction: 17-18 [clean_latex_name(function.func)]; the class of an
    Expectation prints as Expectation, other classes as <class ...> *)
Definition func_name (e : sx) : string :=
  match e with SApp f _ => f | SEx _ => "Expectation" | _ => "<class>" end.
(** model_builder.py 17-18, as_keyvar of a function *)
Definition function_keyvar (e : sx) : string := keyvar (func_name e).
(** model_builder.py 29-30, the trend of a prognostic function *)
Definition function_trend (e : sx) : string := trend_name (func_name e).
(** model_builder.py 67-68, as_keyvar of a constant *)
Definition constant_keyvar (e : sx) : string := keyvar (match e with SSym _ s => s | _ => "" end).

(** MetaDerivative: 33-59 *)
Definition derivative_keyvar (d : sx) : res string :=
  match d with
  | SDer g v => p <- partial_orders v ;; Ok (derivative_name (func_name g) p)
  | _ => Err AttributeError
  end.
(** model_builder.py 42, the order of a derivative *)
Definition derivative_order (d : sx) : res nat :=
  match d with SDer _ v => total_order v | _ => Err AttributeError end.

(** ** the statements of trend *)
Inductive stmt :=
| AliasD (x : string) (i : nat)                                  (* x = dstate[i] *)
| AliasS (x : string) (i : nat)                                  (* x = state[i] *)
| Attr (x a : string)                                            (* x = self.a *)
| CallExogenous                                                  (* exogenous = self.compute_exogenous(t, state) *)
| ExogenousItem (x : string) (i : nat)                           (* x = exogenous[i] *)
| Diff (x f : string) (orders : list (string * nat))             (* x = code of the derivative of f *)
| Store (x : string) (e : sx).                                   (* x[:] = e *)

Fixpoint number {A} (i : nat) (l : list A) : list (nat * A) :=
  match l with [] => [] | a :: r => (i, a) :: number (S i) r end.

Section Builder.
  Variable enum : list sx -> list sx.   (* iteration order of the sets of the system *)
  Variable S : pdes.
  Variable eqs : list equation.

  (** 226-262 *)
  Definition subs_derivatives (rhs : sx) : res sx :=
    foldM (fun rhs order =>
             foldM (fun rhs d =>
                      o <- derivative_order d ;;
                      if Nat.eqb o order then k <- derivative_keyvar d ;; Ok (subs1 d (SSym FunSym k) rhs)
                      else Ok rhs)
                   rhs (enum (s_derivatives S)))
          rhs (rev (seq 1 (s_max_order S))).
  (** model_builder.py 252-254 *)
  Definition subs_functions (rhs : sx) : sx :=
    fold_left (fun rhs f => subs1 f (SSym FunSym (function_keyvar f)) rhs) (enum (s_functions S)) rhs.
  (** model_builder.py 256-258 *)
  Definition subs_constants (rhs : sx) : sx :=
    fold_left (fun rhs c => subs1 c (SSym ScalSym (constant_keyvar c)) rhs) (enum (s_constants S)) rhs.
  (** model_builder.py 236-260, one equation; get_trend is util.py 493-505 *)
  Definition pseudo_equation (q : equation) : res equation :=
    match get_trend q with
    | inl d => if sx_eq_dec (fst q) d then
                 rhs <- subs_derivatives (snd q) ;;
                 Ok (fst q, subs_constants (subs_functions rhs))
               else Err ValueError
    | inr _ => Err ValueError
    end.
  (** model_builder.py 226-262 *)
  Definition pseudo_system : res (list equation) := mapM pseudo_equation eqs.

  (** 264-280.  subs_trend is a dict: a later prognostic function overwrites an earlier equal one *)
  Definition subs_trend : dict sx string :=
    fold_left (fun d f => dset sx_eq_dec f (function_trend f) d) (s_prognostic S) [].
  (** model_builder.py 269-278, one line; the right-hand side is kept as an expression *)
  Definition trend_line (q : equation) : res stmt :=
    match fst q with
    | SDer f _ => x <- dgetE sx_eq_dec f subs_trend ;; Ok (Store x (snd q))
    | _ => Err AttributeError
    end.

  (** templates/footer.py 2-62 *)
  Definition diff_stmt (d : sx) : res stmt :=
    match d with
    | SDer g v => p <- partial_orders v ;;
                  Ok (Diff (derivative_name (func_name g) p) (function_keyvar g) p)
    | _ => Err AttributeError
    end.
  (** templates/footer.py 2-62: the statements of the generated method *)
  Definition trend_program : res (list stmt) :=
    ps <- pseudo_system ;;
    lines <- mapM trend_line ps ;;
    diffs <- mapM diff_stmt (enum (s_derivatives S)) ;;
    Ok (map (fun p => AliasD (function_trend (snd p)) (fst p)) (number 0 (s_prognostic S)) ++
        map (fun p => AliasS (function_keyvar (snd p)) (fst p)) (number 0 (s_prognostic S)) ++
        map (fun f => Attr (function_keyvar f) (function_keyvar f)) (enum (s_constant S)) ++
        map (fun c => Attr (constant_keyvar c) (constant_keyvar c)) (enum (s_constants S)) ++
        (match enum (s_exogenous S) with
         | [] => []
         | l => CallExogenous :: map (fun p => ExogenousItem (function_keyvar (snd p)) (fst p)) (number 0 l)
         end) ++
        diffs ++ lines).
End Builder.

(** ** running the method *)
Section Run.
  Variable V : Type.                            (* values of arrays and numbers *)
  Variables (v_num : Q -> V) (v_add v_mul v_pow : V -> V -> V) (v_zero v_one : V).
  Variable disc : list (string * nat) -> V -> res V.     (* the code of a derivative *)
  Variable attr : string -> res V.                       (* self.name *)
  Variable exogenous : option (list V).                  (* compute_exogenous(t, state) *)

  (** what a local name stands for: a row of dstate, a row of state (both views), a value,
      or one of the objects of the template *)
  Inductive ref := RD (i : nat) | RS (i : nat) | RV (v : V)
  | RSelf | RTime | RState | RDstate | RExogenous.
  (** the local names of the generated method and the rows of dstate and state, templates/footer.py 2-62 *)
  Record mem := { m_env : dict string ref; m_d : list V; m_s : list V }.

  (** templates/footer.py 2-62: reading a name of the method; UnboundLocalError is a NameError *)
  Definition lookup (m : mem) (x : string) : res ref :=
    match dget string_dec x (m_env m) with Some r => Ok r | None => Err NameError end.
  (** templates/footer.py 12-54: an assignment [name = ..] *)
  Definition bindv (x : string) (r : ref) (m : mem) : mem :=
    {| m_env := dset string_dec x r (m_env m); m_d := m_d m; m_s := m_s m |}.
  (** numpy [state[i]] and [dstate[i]], IndexError out of range (templates/footer.py 13, 19) *)
  Definition row (l : list V) (i : nat) : res V :=
    match nth_error l i with Some v => Ok v | None => Err IndexError end.

  (** the value of a local name used as an operand.  NotImplementedError stands for what is
      not modelled: the objects of the template used as numbers. *)
  Definition deref (m : mem) (r : ref) : res V :=
    match r with
    | RD i => row (m_d m) i
    | RS i => row (m_s m) i
    | RV v => Ok v
    | _ => Err NotImplementedError
    end.

  (** sympy prints x**(1/2) as sqrt(x) and x**(-1/2) as 1/sqrt(x) *)
  Definition half (e : sx) : bool :=
    match e with SNum q => Qeq_bool q (1 # 2) || Qeq_bool q (- 1 # 2) | _ => false end.

  (** a printed right-hand side.  The module imports Model and numpy as np only (header.py 1-2):
      a call of sqrt, sin, Derivative, Expectation, .. meets an unbound name, or a name bound
      to an array. *)
  Definition call (m : mem) (f : string) : res V :=
    match dget string_dec f (m_env m) with None => Err NameError | Some _ => Err TypeError end.
  Section Eval.
    Variable m : mem.
    (** evaluation of the right-hand side of a line of trend_code, templates/footer.py 59 *)
    Fixpoint eval (e : sx) : res V :=
      let fix sum l := match l with [] => Ok v_zero | x :: r => a <- eval x ;; b <- sum r ;; Ok (v_add a b) end in
      let fix prod l := match l with [] => Ok v_one | x :: r => a <- eval x ;; b <- prod r ;; Ok (v_mul a b) end in
      match e with
      | SNum q => Ok (v_num q)
      | SSym _ s => r <- lookup m s ;; deref m r
      | SAdd l => sum l
      | SMul l => prod l
      | SPow b x => if half x then call m "sqrt" else a <- eval b ;; n <- eval x ;; Ok (v_pow a n)
      | SApp f _ => call m f
      | SEx _ => call m "Expectation"
      | SDer _ _ => call m "Derivative"
      | SInt _ _ => call m "Integral"
      | SOth h _ => call m h
      end.
  End Eval.

  (** the names state, dstate, exogenous, self of templates/footer.py still mean these objects; other cases are not modelled *)
  Definition object (m : mem) (x : string) (want : ref -> bool) : res unit :=
    r <- lookup m x ;; if want r then Ok tt else Err NotImplementedError.
  (** the object self, read in templates/footer.py 26, 34, 41 *)
  Definition is_self r := match r with RSelf => true | _ => false end.
  (** the object state, read in templates/footer.py 19 *)
  Definition is_state r := match r with RState => true | _ => false end.
  (** the object dstate, read in templates/footer.py 13 *)
  Definition is_dstate r := match r with RDstate => true | _ => false end.
  (** the object exogenous, read in templates/footer.py 43 *)
  Definition is_exogenous r := match r with RExogenous => true | _ => false end.

  (** one statement of templates/footer.py 2-62 *)
  Definition exec (m : mem) (s : stmt) : res mem :=
    match s with
    | AliasD x i => _ <- object m "dstate" is_dstate ;; _ <- row (m_d m) i ;; Ok (bindv x (RD i) m)
    | AliasS x i => _ <- object m "state" is_state ;; _ <- row (m_s m) i ;; Ok (bindv x (RS i) m)
    | Attr x a => _ <- object m "self" is_self ;; v <- attr a ;; Ok (bindv x (RV v) m)
    | CallExogenous => _ <- object m "self" is_self ;; _ <- lookup m "t" ;; _ <- lookup m "state" ;;
                       Ok (bindv "exogenous" RExogenous m)
    | ExogenousItem x i =>
        _ <- object m "exogenous" is_exogenous ;;
        match exogenous with
        | None => Err TypeError                       (* 'NoneType' object is not subscriptable *)
        | Some l => v <- row l i ;; Ok (bindv x (RV v) m)
        end
    | Diff x f p => _ <- object m "self" is_self ;; r <- lookup m f ;; a <- deref m r ;;
                    v <- disc p a ;; Ok (bindv x (RV v) m)
    | Store x e =>
        v <- eval m e ;; r <- lookup m x ;;
        match r with
        | RD i => _ <- row (m_d m) i ;;
                  Ok {| m_env := m_env m; m_d := set_nth i v (m_d m); m_s := m_s m |}
        | RS i => _ <- row (m_s m) i ;;
                  Ok {| m_env := m_env m; m_d := m_d m; m_s := set_nth i v (m_s m) |}
        | _ => Err NotImplementedError
        end
    end.

  (** the names that the statements of templates/footer.py 12-60 assign: Python makes them local to the method *)
  Definition assigned (s : stmt) : list string :=
    match s with
    | AliasD x _ | AliasS x _ | Attr x _ | ExogenousItem x _ | Diff x _ _ => [x]
    | CallExogenous => ["exogenous"]
    | Store _ _ => []
    end.

  (** trend(t, state): returns dstate, and state as it is left.  A program that assigns np
      makes it a local name, unbound when np.zeros is called. *)
  Definition run_trend (prog : list stmt) (state : list V) : res (list V * list V) :=
    if lmem string_dec "np" (flat_map assigned prog) then Err NameError
    else m <- foldM exec {| m_env := [("self", RSelf); ("t", RTime); ("state", RState); ("dstate", RDstate)];
                            m_d := map (fun _ => v_zero) state; m_s := state |} prog ;;
         Ok (m_d m, m_s m).
End Run.
