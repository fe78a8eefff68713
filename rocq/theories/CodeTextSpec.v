(** Specification vocabulary for the text of a finite-difference expression. *)
From Coq Require Import List Arith ZArith QArith Bool Ascii String.
From Verif Require Import PyBase StrModel StrSpec CodeTextModel.
Import ListNotations.
Close Scope Q_scope.
Open Scope string_scope.
Open Scope list_scope.
Open Scope nat_scope.

(** A printed expression: a literal, then functions each followed by a literal.  [show] prints a function. *)
Definition print_with (show : pfun -> string) (first : string) (rest : list (pfun * string)) : string :=
  (first ++ sconcat (map (fun p => show (fst p) ++ snd p) rest))%string.

(** characters that sympy prints around a function and that no name contains *)
Definition name_sep (c : ascii) : bool :=
  existsb (Ascii.eqb c) ["("; ")"; "["; "]"; "*"; "/"; "+"; "-"; " "; "'"]%char.
Definition begins_sep (s : string) : Prop :=
  match s with EmptyString => True | String c _ => name_sep c = true /\ c <> "("%char end.
Definition ends_sep (s : string) : Prop := exists a c, s = (a ++ String c "")%string /\ name_sep c = true.

(** functions are separated from what is around them *)
Fixpoint separated_rest (rest : list (pfun * string)) : Prop :=
  match rest with
  | [] => True
  | (_, l) :: r => begins_sep l /\ (r = [] \/ ends_sep l) /\ separated_rest r
  end.
Definition separated (first : string) (rest : list (pfun * string)) : Prop :=
  (rest = [] \/ first = "" \/ ends_sep first) /\ separated_rest rest.

(** a name has no separator, a printed argument neither parenthesis nor quote, a coordinate no parenthesis *)
Definition plain_function (f : pfun) : Prop :=
  pf_name f <> "" /\ (forall c, In c (chars (pf_name f)) -> name_sep c = false)
  /\ (forall c, In c (chars (args_text f)) -> c <> "(" /\ c <> ")" /\ c <> "'")%char.
Definition plain_coordinate (x : string) : Prop :=
  x <> "" /\ (forall r, x <> String "d" r) /\ no_char "(" x /\ no_char ")" x.

(** the function is applied to the coordinates [xs], each displaced or not *)
Definition applied_to (xs : list string) (f : pfun) : Prop :=
  Forall2 (fun x a => pa_symbols a = [x] \/ pa_symbols a = [x; ("d" ++ x)%string] \/ pa_symbols a = [("d" ++ x)%string; x])
    xs (pf_args f).

(** values in the order of their first occurrence *)
Definition first_seen (l : list string) : list string :=
  fold_left (fun acc x => if existsb (String.eqb x) acc then acc else acc ++ [x]) l [].

(** what SymPy prints for a function applied to arguments *)
Definition printed (f : pfun) : string := (pf_name f ++ "(" ++ String.concat ", " (map pa_text (pf_args f)) ++ ")")%string.
(** the entry of the dictionary self.dx *)
Definition spacing_entry (x : string) : string := ("self.dx['" ++ x ++ "']")%string.
