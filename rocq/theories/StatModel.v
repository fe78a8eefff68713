(** The parametric dynamics of advection in its aspect form, the system given by SymbolicPKF(advection).in_aspect
    (/repo/src/sympkf/symbolic/pkfcas.py 560-658) to FDModelBuilder in the notebook "PKF on the 2D advection
    with ensemble validation", cells 12 and 22.

    The right-hand sides are written expanded, the inverse of the tensor eliminated, as sympy displays them in cell 12
    (there for the opposite winds); C114_equations states that they are the right-hand sides of PKFModel.in_aspect,
    where the inverse is kept as a symbol.  A product is the list of its factors and a sum the list of its terms, in
    the order of the axes: sympy may order them otherwise. *)
From Coq Require Import List Arith Bool String QArith.
From Verif Require Import PyBase SymModel PDEModel PKFModel AdvectModel.
Import ListNotations.
Close Scope Q_scope.
Open Scope nat_scope.
Open Scope string_scope.
Open Scope list_scope.

(** the mean, the variance, the entries of the aspect tensor, the winds *)
Inductive qty := QMean | QVar | QAsp (a b : nat) | QWind (k : nat).
(** the number of coordinates, dynamics.py 37, 61 *)
Definition dims (c : advect) : nat := List.length (axes c).
(** one coordinate, dynamics.py 37, 61 *)
Definition axis (c : advect) (k : nat) : string := nth k (axes c) "".
(** the functions: pkfcas.py 938 (variance), 1000-1003 (index_code), 1015-1017 (aspect_func); the name of the field is c *)
Definition qty_sx (c : advect) (q : qty) : sx :=
  match q with
  | QMean => carried c
  | QVar => SApp "{V_{c}}" (time :: axis_symbols c)
  | QAsp a b => SApp ("{s_{c," ++ axis c a ++ axis c b ++ "}}") (time :: axis_symbols c)
  | QWind k => wind c (nth k (winds c) "")
  end.
(** the same functions in PKFModel *)
Definition qty_fn (c : advect) (q : qty) : fn :=
  match q with
  | QMean => FField 0
  | QVar => FVar 0
  | QAsp a b => FAsp 0 a b
  | QWind k => FExt k (axes c)
  end.
(** index_code, 1000-1003: the entries (a,b) and (b,a) are one function *)
Definition asp (a b : nat) : qty := if Nat.ltb b a then QAsp b a else QAsp a b.

(** a coefficient and factors, functions or derivatives of functions along an axis *)
Definition sterm := (Q * list (qty * option nat))%type.
(** a factor as an expression of sympy (pkfcas.py 561-658) *)
Definition factor_sx (c : advect) (x : qty * option nat) : sx :=
  match x with
  | (q, None) => qty_sx c q
  | (q, Some k) => SDer (qty_sx c q) [(axis c k, 1)]
  end.
(** a term as an expression of sympy, where the coefficient 1 does not appear (pkfcas.py 561-658) *)
Definition term_sx (c : advect) (t : sterm) : sx :=
  SMul ((if Qeq_bool (fst t) 1 then [] else [SNum (fst t)]) ++ map (factor_sx c) (snd t)).
(** the same term in the notation of PKFModel (pkfcas.py 561-658) *)
Definition term_poly (c : advect) (t : sterm) : Q * list atom :=
  (fst t, map (fun x => AJet (qty_fn c (fst x)) (match snd x with None => [] | Some k => [axis c k] end)) (snd t)).

(** - w . grad q *)
Definition moved (c : advect) (q : qty) : list sterm :=
  map (fun k => ((-1)%Q, [(QWind k, None); (q, Some k)])) (seq 0 (dims c)).
(** sum_k s_ak D_k w_b + s_kb D_k w_a *)
Definition deformed (c : advect) (a b : nat) : list sterm :=
  if Nat.eqb a b then map (fun k => (2%Q, [(asp a k, None); (QWind a, Some k)])) (seq 0 (dims c))
  else flat_map (fun k => [(1%Q, [(asp a k, None); (QWind b, Some k)]); (1%Q, [(asp k b, None); (QWind a, Some k)])]) (seq 0 (dims c)).
(** the right hand sides of in_aspect (pkfcas.py 561-658) for the advections of dynamics.py 43-45, 68-70 *)
Definition rate_terms (c : advect) (q : qty) : list sterm :=
  moved c q ++ match q with QAsp a b => deformed c a b | _ => [] end.

(** the prognostic functions in the order of in_aspect: the mean, the variance, the entries a <= b *)
Definition entries (n : nat) : list (nat * nat) := flat_map (fun a => map (pair a) (seq a (n - a))) (seq 0 n).
(** the prognostic functions of in_aspect, pkfcas.py 561-658 *)
Definition statistics_of (c : advect) : list qty := QMean :: QVar :: map (fun p => QAsp (fst p) (snd p)) (entries (dims c)).
(** the rows of the state *)
Definition pkf_advection (c : advect) : list equation :=
  map (fun q => (SDer (qty_sx c q) [("t", 1)], SAdd (map (term_sx c) (rate_terms c q)))) (statistics_of c).
