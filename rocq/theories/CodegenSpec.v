(** What the trend of a system of prognostic equations is, and which systems the generated
    names can tell apart. *)
From Coq Require Import List Arith Bool String QArith.
From Verif Require Import PyBase SymModel PDEModel StrModel CodegenModel.
Import ListNotations.
Close Scope Q_scope.
Open Scope nat_scope.
Open Scope string_scope.
Open Scope list_scope.

(** The meaning of a right-hand side: functions have the values [rho], constants [kappa],
    a derivative is the discretisation [delta] applied to the values of the function. *)
Section Mean.
  Variable V : Type.
  Variables (v_num : Q -> V) (v_add v_mul v_pow : V -> V -> V) (v_zero v_one : V).
  Variables (rho kappa : sx -> V) (delta : list (string * nat) -> V -> V).
  Fixpoint mean (e : sx) : V :=
    match e with
    | SNum q => v_num q
    | SSym _ _ => kappa e
    | SDer g v => delta v (rho g)
    | SAdd l => fold_right v_add v_zero (map mean l)
    | SMul l => fold_right v_mul v_one (map mean l)
    | SPow b x => v_pow (mean b) (mean x)
    | _ => rho e
    end.
End Mean.

(** no function and no derivative inside the arguments *)
Definition simple_args (l : list sx) : Prop :=
  forall y, In y (flat_map subterms l) -> is_function y = false /\ is_derivative y = false.

(** Right-hand sides built with sums, products and powers (no square root) from numbers,
    constants of the system, functions and spatial derivatives of functions. *)
Inductive flat (constants : list sx) : sx -> Prop :=
| flat_num q : flat constants (SNum q)
| flat_sym k s : In (SSym k s) constants -> flat constants (SSym k s)
| flat_app f l : simple_args l -> flat constants (SApp f l)
| flat_der f l v : simple_args l -> v <> [] -> NoDup (map fst v) -> ~ In "t" (map fst v) ->
                   (forall p, In p v -> snd p <> 0) -> flat constants (SDer (SApp f l) v)
| flat_add l : Forall (flat constants) l -> flat constants (SAdd l)
| flat_mul l : Forall (flat constants) l -> flat constants (SMul l)
| flat_pow b x : flat constants b -> flat constants x -> half x = false -> flat constants (SPow b x).

(** the name of the class of a function; of a symbol *)
Definition class_name (f : sx) (n : string) : Prop :=
  match f with SApp g _ => n = g | SEx _ => n = "Expectation" | _ => n = "<class>" end.
Definition symbol_name (c : sx) (n : string) : Prop := match c with SSym _ s => n = s | _ => n = "" end.

(** the name of the variable of a spatial derivative *)
Definition dname (d : sx) : string :=
  match d with SDer g v => derivative_name (func_name g) v | _ => "" end.

(** every local name of the method *)
Definition names (S : pdes) : list string :=
  map function_trend (s_prognostic S) ++ map function_keyvar (s_prognostic S) ++
  map function_keyvar (s_constant S) ++ map constant_keyvar (s_constants S) ++
  map function_keyvar (s_exogenous S) ++ map dname (s_derivatives S).
Definition reserved : list string := ["self"; "t"; "state"; "dstate"; "np"; "exogenous"].

Record translatable (S : pdes) (eqs : list equation) : Prop := {
  t_lhs : map fst eqs = map (fun f => SDer f [("t", 1)]) (s_prognostic S);
  t_fun : forall f, In f (s_prognostic S) -> exists g l, f = SApp g l /\ simple_args l;
  t_rhs : forall q, In q eqs -> flat (s_constants S) (snd q);
  t_plain : forall c, In c (s_constants S) -> exists s, c = SSym Plain s;
  t_canonical : forall g v w, In (SDer g v) (s_derivatives S) -> In (SDer g w) (s_derivatives S) ->
                (forall c, count c v = count c w) -> v = w;
  t_distinct : NoDup (names S);
  t_free : forall x, In x (names S) -> ~ In x reserved }.

(** the model holds the values of an assignment *)
Record holds {V} (enum : list sx -> list sx) (S : pdes) (rho kappa : sx -> V)
       (delta : list (string * nat) -> V -> V)
       (disc : list (string * nat) -> V -> res V) (attr : string -> res V)
       (exogenous : option (list V)) (state : list V) : Prop := {
  h_state : state = map rho (s_prognostic S);
  h_constant : forall f, In f (s_constant S) -> attr (function_keyvar f) = Ok (rho f);
  h_constants : forall c, In c (s_constants S) -> attr (constant_keyvar c) = Ok (kappa c);
  h_exogenous : s_exogenous S <> [] -> exogenous = Some (map rho (enum (s_exogenous S)));
  h_disc : forall g v, In (SDer g v) (s_derivatives S) -> disc v (rho g) = Ok (delta v (rho g)) }.

(** A right-hand side that asks for something no line of the method provides: a square root,
    an integral, another class of sympy, or a symbol that is neither one of the [constants]
    nor one of the local names [bound]. *)
Inductive unreadable (constants : list sx) (bound : list string) : sx -> Prop :=
| un_symbol k s : ~ In (SSym k s) constants -> ~ In s bound -> unreadable constants bound (SSym k s)
| un_root b x : half x = true -> unreadable constants bound (SPow b x)
| un_integral a v : unreadable constants bound (SInt a v)
| un_other h l : unreadable constants bound (SOth h l)
| un_add l e : In e l -> unreadable constants bound e -> unreadable constants bound (SAdd l)
| un_mul l e : In e l -> unreadable constants bound e -> unreadable constants bound (SMul l)
| un_base b x : unreadable constants bound b -> unreadable constants bound (SPow b x)
| un_exponent b x : unreadable constants bound x -> unreadable constants bound (SPow b x).

(** an equation whose left-hand side is its only first-order time derivative *)
Definition time_derivative (d : sx) : Prop := exists g v, d = SDer g (("t", 1) :: v).
Definition prognostic_equation (q : equation) : Prop :=
  time_derivative (fst q) /\
  forall d, In d (subterms (fst q) ++ subterms (snd q)) -> time_derivative d -> d = fst q.
