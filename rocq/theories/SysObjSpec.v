(** What the statements about PDESystem objects mean. *)
From Coq Require Import List Arith ZArith Bool String Ascii.
From Verif Require Import PyBase SymModel PDEModel SysObjModel.
Import ListNotations.
Open Scope nat_scope.

(** the system [o] of the program and the equations that it has now *)
Definition has (w : world) (o : nat) (y : sysobj) (L : list equation) : Prop :=
  nth_error (w_systems w) o = Some y /\ nth_error (w_lists w) (y_list y) = Some L.

(** a statement that does not give the system [o] another list *)
Definition not_reassigned (o : nat) (x : op) : Prop :=
  match x with Assign o' _ => o' <> o | _ => True end.
(** a statement that does not change the list [a] either *)
Definition undisturbed (a o : nat) (x : op) : Prop :=
  match x with
  | Append b _ | SetEntry b _ _ => b <> a
  | Assign o' _ => o' <> o
  | _ => True
  end.
(** a statement that only reads *)
Definition reading (x : op) : Prop :=
  match x with Iter _ | Next _ | Item _ _ | Show _ => True | _ => False end.

(** what the statements [next(g)] of a program give *)
Definition is_next (g : nat) (x : op) : bool := match x with Next g' => Nat.eqb g' g | _ => false end.
Definition nexts (g : nat) (tr : list (op * res answer)) : list (res answer) :=
  map snd (filter (fun p => is_next g (fst p)) tr).
(** the equations in order, once each, then StopIteration for ever *)
Definition once_each (L : list equation) (m : nat) : list (res answer) :=
  map (fun q => Ok (AEq q)) (firstn m L) ++ repeat (Ok AStop) (m - List.length L).

(** the lines of a text *)
Fixpoint lines (s : string) : list string :=
  match s with
  | EmptyString => [EmptyString]
  | String c r => if Ascii.eqb c (ascii_of_nat 10) then EmptyString :: lines r
                  else match lines r with l :: ls => String c l :: ls | [] => [String c EmptyString] end
  end.
Definition one_line (s : string) : Prop := lines s = [s].
(** items separated by [sep] *)
Definition listed (sep : string) (l : list string) : string :=
  match l with
  | [] => EmptyString
  | a :: r => fold_left (fun t b => t ++ sep ++ b)%string r a
  end.
