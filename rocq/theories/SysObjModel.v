(** PDESystem as an object: /repo/src/sympkf/symbolic/util.py 159-236 (constructor, iteration,
    indexing, text).  The attributes computed by the constructor are those of [PDEModel].

    Modelled: the list of equations is kept by reference (172), the iterator is a generator that
    reads the list when it is advanced (197-204), an index is an integer (206-208; slices are not
    modelled).  Lists, systems and iterators have an identity, their position of creation.
    Simplified: sympy's [str] is an arbitrary function. *)
From Coq Require Import List Arith ZArith Bool String Ascii.
From Verif Require Import PyBase SymModel PDEModel StrModel.
Import ListNotations.
Close Scope Q_scope.
Open Scope nat_scope.
Open Scope string_scope.
Open Scope list_scope.
Open Scope py_scope.

(** the object: equations (util.py 172) is the list with this identity, name (174), the other attributes (177-195) *)
Record sysobj := mkSys { y_list : nat; y_name : string; y_attr : pdes }.
(** the generator of util.py 200-204: not started, in the loop over a list at an index, finished *)
Inductive gen := GStart (o : nat) | GAt (a i : nat) | GDone.
(** the lists of equations, the systems and the iterators of a program that uses util.py 159-236 *)
Record world := mkW { w_lists : list (list equation); w_systems : list sysobj; w_gens : list gen }.
(** before any statement of a program that uses util.py 159-236 *)
Definition empty_world : world := mkW [] [] [].
(** the list with this identity, in a program that uses util.py 159-236 *)
Definition list_at (w : world) (a : nat) : list equation := nth a (w_lists w) [].

(** the argument of the constructor, util.py 165-172: a list, one equation, a tuple *)
Inductive arg := ArgList (a : nat) | ArgEq (q : equation) | ArgTuple (l : list equation).
(** the statements of a program that uses util.py 159-236 *)
Inductive op :=
| NewList (l : list equation)                      (* a list of the caller *)
| Append (a : nat) (q : equation)                  (* l.append(q) *)
| SetEntry (a i : nat) (q : equation)              (* l[i] = q *)
| New (x : arg) (name : string)                    (* PDESystem(x, name=name) *)
| Assign (o a : nat)                               (* system.equations = l *)
| Iter (o : nat)                                   (* iter(system) *)
| Next (g : nat)                                   (* next(iterator) *)
| Item (o : nat) (k : Z)                           (* system[k] *)
| Show (o : nat).                                  (* repr(system) *)
(** what a statement gives, util.py 159-236; [AStop] is StopIteration *)
Inductive answer := ADone | AEq (q : equation) | AStop | AText (s : string).

(** the line break of the texts of util.py 226-234 *)
Definition nl : string := String (ascii_of_nat 10) "".

Section World.
  (** iteration order of a Python set: any rearrangement *)
  Variable enum : list sx -> list sx.
  (** Python [str] of a sympy expression *)
  Variable str : sx -> string.

  (** __repr__, util.py 210-236 *)
  Definition show (name : string) (S : pdes) : string := (
    let name := if String.eqb name "" then "" else "'" ++ name ++ "'" in
    let prognostic_functions := join ", " (map str (s_prognostic S)) in
    let exogenous_functions := join ", " (map str (enum (s_exogenous S))) in
    let constant_functions := join ", " (map str (enum (s_constant S))) in
    let constants := join ", " (map (fun c => clean_latex_name (str c)) (enum (s_constants S))) in
    let trainable_scalars := join "," (map (fun c => clean_latex_name (str c)) (enum (s_trainable S))) in
    let text := "PDE System " ++ name ++ ":" ++ nl ++
      "        prognostic functions : " ++ prognostic_functions ++ nl ++
      "        constant functions   : " ++ constant_functions ++ nl ++
      "        exogeneous functions : " ++ exogenous_functions ++ nl ++
      "        constants            : " ++ constants ++ nl ++
      "        " in
    match s_trainable S with
    | [] => text
    | _ => text ++ nl ++ "        trainable scalars    : " ++ trainable_scalars ++ nl ++ "            "
    end)%string.

  (** Python [l[k]] for an integer k, util.py 208 *)
  Definition getitem (l : list equation) (k : Z) : res equation :=
    let k := if (k <? 0)%Z then (k + Z.of_nat (List.length l))%Z else k in
    if (k <? 0)%Z then Err IndexError
    else match nth_error l (Z.to_nat k) with Some q => Ok q | None => Err IndexError end.

  (** one step of the loop of util.py 201-202 over the list [l] *)
  Definition advance (l : list equation) (a i : nat) : answer * gen :=
    match nth_error l i with Some q => (AEq q, GAt a (S i)) | None => (AStop, GDone) end.

  (** one statement of a program that uses util.py 159-236 *)
  Definition step (w : world) (x : op) : res answer * world :=
    match x with
    | NewList l => (Ok ADone, mkW (w_lists w ++ [l]) (w_systems w) (w_gens w))
    | Append a q =>
        match nth_error (w_lists w) a with
        | Some l => (Ok ADone, mkW (set_nth a (l ++ [q]) (w_lists w)) (w_systems w) (w_gens w))
        | None => (Err NameError, w)
        end
    | SetEntry a i q =>
        match nth_error (w_lists w) a with
        | Some l => if Nat.ltb i (List.length l)
                    then (Ok ADone, mkW (set_nth a (set_nth i q l) (w_lists w)) (w_systems w) (w_gens w))
                    else (Err IndexError, w)
        | None => (Err NameError, w)
        end
    | New (ArgList a) name =>
        match nth_error (w_lists w) a with
        | Some l =>
            match pde_system enum l with
            | Ok p => (Ok ADone, mkW (w_lists w) (w_systems w ++ [mkSys a name p]) (w_gens w))
            | Err e => (Err e, w)
            end
        | None => (Err NameError, w)
        end
    | New (ArgEq q) name =>                        (* 169-170: equations = [equations] *)
        match pde_system enum [q] with
        | Ok p => (Ok ADone, mkW (w_lists w ++ [[q]]) (w_systems w ++ [mkSys (List.length (w_lists w)) name p]) (w_gens w))
        | Err e => (Err e, w)
        end
    | New (ArgTuple l) name => (Err AttributeError, w)   (* 169-170, 244: a tuple has no atoms *)
    | Assign o a =>
        match nth_error (w_systems w) o, nth_error (w_lists w) a with
        | Some y, Some _ => (Ok ADone, mkW (w_lists w) (set_nth o (mkSys a (y_name y) (y_attr y)) (w_systems w)) (w_gens w))
        | _, _ => (Err NameError, w)
        end
    | Iter o =>
        match nth_error (w_systems w) o with
        | Some _ => (Ok ADone, mkW (w_lists w) (w_systems w) (w_gens w ++ [GStart o]))
        | None => (Err NameError, w)
        end
    | Next g =>
        match nth_error (w_gens w) g with
        | None => (Err NameError, w)
        | Some GDone => (Ok AStop, w)
        | Some (GAt a i) =>
            let '(r, s) := advance (list_at w a) a i in (Ok r, mkW (w_lists w) (w_systems w) (set_nth g s (w_gens w)))
        | Some (GStart o) =>
            match nth_error (w_systems w) o with
            | Some y =>
                let '(r, s) := advance (list_at w (y_list y)) (y_list y) 0 in
                (Ok r, mkW (w_lists w) (w_systems w) (set_nth g s (w_gens w)))
            | None => (Err NameError, w)
            end
        end
    | Item o k =>
        match nth_error (w_systems w) o with
        | Some y => (q <- getitem (list_at w (y_list y)) k ;; Ok (AEq q), w)
        | None => (Err NameError, w)
        end
    | Show o =>
        match nth_error (w_systems w) o with
        | Some y => (Ok (AText (show (y_name y) (y_attr y))), w)
        | None => (Err NameError, w)
        end
    end.
  (** a program that uses util.py 159-236, and what its statements give *)
  Definition run (w : world) (h : list op) : world := fold_left (fun w x => snd (step w x)) h w.
  (** what the statements of a program that uses util.py 159-236 give, with the statement *)
  Fixpoint trace (w : world) (h : list op) : list (op * res answer) :=
    match h with
    | [] => []
    | x :: h => (x, fst (step w x)) :: trace (snd (step w x)) h
    end.
End World.
