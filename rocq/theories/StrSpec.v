(** Specification vocabulary for generated text. *)
From Coq Require Import List Arith ZArith Bool Ascii String.
Import ListNotations.
Open Scope string_scope.
Open Scope list_scope.
Open Scope nat_scope.

Fixpoint sconcat (l : list string) : string :=
  match l with [] => "" | a :: r => (a ++ sconcat r)%string end.

Definition infix (p s : string) : Prop := exists a b, s = (a ++ p ++ b)%string.
Fixpoint chars (s : string) : list ascii :=
  match s with EmptyString => [] | String c r => c :: chars r end.
Fixpoint of_chars (l : list ascii) : string :=
  match l with [] => "" | c :: r => String c (of_chars r) end.

(** character-wise normalisation of a LaTeX name *)
Definition norm (s : string) : string :=
  of_chars (flat_map (fun c =>
    if existsb (Ascii.eqb c) [ascii_of_nat 92; "{"%char; "}"%char] then []
    else if existsb (Ascii.eqb c) ["^"%char; ","%char] then ["_"%char] else [c]) (chars s)).

(** characters of identifiers *)
Definition is_ident (c : ascii) : bool :=
  let n := nat_of_ascii c in
  (Nat.leb 48 n && Nat.leb n 57) || (Nat.leb 65 n && Nat.leb n 90) || (Nat.leb 97 n && Nat.leb n 122) || Nat.eqb n 95.
Definition ident (s : string) : Prop := s <> "" /\ forall c, In c (chars s) -> is_ident c = true.

(** a program text as identifiers separated by other characters *)
Inductive token := Id (s : string) | Sep (c : ascii).
Definition tok_text (t : token) : string := match t with Id s => s | Sep c => String c "" end.
Definition text (ts : list token) : string := sconcat (map tok_text ts).
Fixpoint wf_tokens (ts : list token) : Prop :=
  match ts with
  | [] => True
  | Sep c :: r => is_ident c = false /\ wf_tokens r
  | Id s :: r => ident s /\ match r with Id _ :: _ => False | _ => True end /\ wf_tokens r
  end.

(** the intended replacement: whole identifiers *)
Definition subst_tokens (loc : list string) (rule : string -> string) (ts : list token) : string :=
  sconcat (map (fun t => match t with
    | Sep c => String c ""
    | Id s => match find (fun c => String.eqb s ("d" ++ c)) loc with Some c => rule c | None => s end
    end) ts).

Definition no_char (c : ascii) (s : string) : Prop := ~ In c (chars s).
