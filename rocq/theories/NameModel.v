(** Names of the functions that SymbolicPKF and Field attach to the prognostic functions:
    /repo/src/sympkf/symbolic/pkfcas.py 721-739 (get_covariance), 921-962 (Field.__init__),
    1000-1017 (index_code, metric_func, nu_func, aspect_func).

    A sympy function application is a name, the names of its arguments (symbols) and the
    assumption given to Function(...): two applications are the same expression when the three
    agree.  Simplification: arguments are plain symbols, one assumption at most. *)
From Coq Require Import List Arith Bool String.
From Verif Require Import PyBase StrModel.
Import ListNotations.
Open Scope string_scope.
Open Scope list_scope.
Open Scope nat_scope.
Open Scope py_scope.

(** the assumptions given to Function, pkfcas.py 932-941, 1005-1017 *)
Inductive assumption := Plain | Real | Positive.
(** a function of sympy: name, arguments, assumptions (pkfcas.py 932-941, 1005-1017) *)
Record func := mkFunc { f_name : string; f_args : list string; f_assume : assumption }.

(** equality of assumptions; sympy compares them (pkfcas.py 932-941) *)
Definition assumption_eq_dec (a b : assumption) : {a = b} + {a <> b}.
Proof. decide equality. Defined.
(** equality of functions of sympy: name, arguments and assumptions (pkfcas.py 932-941, 1005-1017) *)
Definition func_eq_dec (a b : func) : {a = b} + {a <> b}.
Proof. decide equality; [apply assumption_eq_dec|apply (list_eq_dec string_dec)|apply string_dec]. Defined.

(** 923: self.code = clean_latex_name(field.func) *)
Definition code (f : func) : string := clean_latex_name (f_name f).
(** 926: the arguments other than the symbol t (constants.py 2) *)
Definition spatial_coordinates (f : func) : list string := filter (fun c => negb (String.eqb c "t")) (f_args f).
(** 929 *)
Definition spatial_coords_code (f : func) : list string := map clean_latex_name (spatial_coordinates f).

(** 932; omega is symbols('omega'), random.py 8 *)
Definition random (f : func) : func := mkFunc (f_name f) (f_args f ++ ["omega"]) Plain.
(** pkfcas.py 933 *)
Definition epsilon (f : func) : func := mkFunc ("{" ++ backslash ++ "varepsilon_{" ++ code f ++ "}}") (f_args f ++ ["omega"]) Plain.
(** pkfcas.py 934 *)
Definition error (f : func) : func := mkFunc ("{e_{" ++ code f ++ "}}") (f_args f ++ ["omega"]) Plain.
(** pkfcas.py 938 *)
Definition variance (f : func) : func := mkFunc ("{V_{" ++ code f ++ "}}") (f_args f) Positive.
(** pkfcas.py 941 *)
Definition std (f : func) : func := mkFunc ("{" ++ backslash ++ "sigma_{" ++ code f ++ "}}") (f_args f) Positive.

(** 1000-1003; the indices are those of range(n), not negative *)
Definition index_code (f : func) (i j : nat) : res string :=
  let '(i, j) := if Nat.ltb j i then (j, i) else (i, j) in
  match nth_error (spatial_coords_code f) i, nth_error (spatial_coords_code f) j with
  | Some a, Some b => Ok (a ++ b)%string
  | _, _ => Err IndexError
  end.
(** 1005-1006 *)
Definition metric_func (f : func) (i j : nat) : res func :=
  c <- index_code f i j ;; Ok (mkFunc ("{g_{" ++ code f ++ "," ++ c ++ "}}") (f_args f) Real).
(** pkfcas.py 1011-1013 *)
Definition nu_func (f : func) (i j : nat) : res func :=
  c <- index_code f i j ;; Ok (mkFunc ("{" ++ backslash ++ "nu_{" ++ code f ++ "," ++ c ++ "}}") (f_args f) Real).
(** pkfcas.py 1015-1017 *)
Definition aspect_func (f : func) (i j : nat) : res func :=
  c <- index_code f i j ;; Ok (mkFunc ("{s_{" ++ code f ++ "," ++ c ++ "}}") (f_args f) Real).

(** 944-947: Matrix(n, n, function): rows of entries *)
Definition tensor (entry : nat -> nat -> res func) (n : nat) : res (list (list func)) :=
  mapM (fun i => mapM (fun j => entry i j) (seq 0 n)) (seq 0 n).
(** pkfcas.py 944-945 *)
Definition metric (f : func) : res (list (list func)) := tensor (metric_func f) (List.length (spatial_coordinates f)).
(** pkfcas.py 944, 946 *)
Definition diffusion (f : func) : res (list (list func)) := tensor (nu_func f) (List.length (spatial_coordinates f)).
(** pkfcas.py 944, 947 *)
Definition aspect (f : func) : res (list (list func)) := tensor (aspect_func f) (List.length (spatial_coordinates f)).

(** 721-739; 78: _label_covariance = "V_" *)
Definition get_covariance (fields : list func) (f1 f2 : func) : res func :=
  if forallb (fun f => existsb (fun g => if func_eq_dec f g then true else false) fields) [f1; f2] then
    if list_eq_dec string_dec (f_args f1) (f_args f2) then Ok (mkFunc ("V_" ++ f_name f1 ++ f_name f2) (f_args f1) Plain)
    else Err AssertionError
  else Err ValueError.
