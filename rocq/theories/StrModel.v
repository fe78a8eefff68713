(** Text produced by the code generators:
    /repo/src/sympkf/symbolic/tool.py 1-20 (clean_latex_name),
    /repo/src/sympkf/symbolic/util.py 371-450 (get_coordinates, get_function_coordinates),
    /repo/src/sympkf/symbolic/finite_difference.py 285-373 (code_regular_function,
    code_finite_difference), /repo/src/sympkf/symbolic/model_builder.py 8-53 and
    model_builder_FD.py 6-12 (variable names and coding rules).

    Python strings are Coq strings (bytes).  Python's [str.replace] is modelled for a
    non-empty pattern, the only case used. *)
From Coq Require Import List Arith ZArith QArith Bool Ascii String DecimalString.
From Verif Require Import PyBase.
Import ListNotations.
Close Scope Q_scope.
Open Scope string_scope.
Open Scope list_scope.
Open Scope nat_scope.

(** ** Python string operations *)
(** does [p] start [s] *)
Fixpoint starts (p s : string) : bool :=
  match p, s with
  | EmptyString, _ => true
  | String a p, String b s => if ascii_dec a b then starts p s else false
  | String _ _, EmptyString => false
  end.

(** [s.replace(old,new)]: left to right, non overlapping.  [skip] characters of the
    current match remain to be dropped. *)
Fixpoint replace_from (old new s : string) (skip : nat) : string :=
  match s with
  | EmptyString => EmptyString
  | String c r =>
      match skip with
      | S k => replace_from old new r k
      | O => if starts old s then (new ++ replace_from old new r (String.length old - 1))%string
             else String c (replace_from old new r 0)
      end
  end.
(** Python [str.replace], tool.py 8-18, finite_difference.py 366, 371 *)
Definition replace (old new s : string) : string := replace_from old new s 0.

(** [sep.join(l)] *)
Fixpoint join (sep : string) (l : list string) : string :=
  match l with
  | [] => ""
  | [a] => a
  | a :: r => (a ++ sep ++ join sep r)%string
  end.

(** [str] of an integer *)
Definition str_nat (n : nat) : string := NilEmpty.string_of_uint (Nat.to_uint n).
(** Python [str] of an integer, finite_difference.py 318, 332 *)
Definition str_Z (z : Z) : string := NilEmpty.string_of_int (Z.to_int z).

(** ** tool.py 1-20 *)
Definition backslash : string := String (ascii_of_nat 92) "".
(** tool.py 1-20 *)
Definition clean_latex_name (label : string) : string :=
  let label := replace backslash "" label in
  let label := replace "{" "" label in
  let label := replace "}" "" label in
  let label := replace "^" "_" label in
  replace "," "_" label.

(** ** util.py 371-450: one argument of a function.  [coordinate] is the enumeration of the
    set [arg.atoms(Symbol)]; the two functions have the same body. *)
Definition arg_coordinate (coordinate : list string) : res (string * string) :=
  match coordinate with
  | [xi; dxi] =>
      match xi with
      | EmptyString => Err IndexError
      | String c _ => if ascii_dec c "d" then Ok (dxi, xi) else Ok (xi, dxi)
      end
  | [xi] => Ok (xi, ("d" ++ xi)%string)
  | _ => Err ValueError
  end.
(** util.py 410-450 *)
Definition get_function_coordinates (args : list (list string)) : res (list string * list string) :=
  l <- mapM arg_coordinate args ;; Ok (map fst l, map snd l).

(** ** finite_difference.py 289-338.
    A displaced function is its name, its coordinates (raw names) and its displacements,
    rationals since [coeff] may return any number. *)
Definition as_integer (q : Q) : option Z := if Pos.eqb (Qden q) 1 then Some (Qnum q) else None.

(** 310-319 *)
Definition time_tag (s : Z) : string :=
  if Z.eqb s 0 then "" else if Z.ltb s 0 then ("m" ++ str_Z (Z.abs s))%string else ("p" ++ str_Z (Z.abs s))%string.

(** the slice rule of model_builder_FD.py 7-8, called at 332 with the quoted name *)
Definition fd_slice_rule (quoted : string) (step : Z) : string :=
  ("self.index(" ++ quoted ++ "," ++ str_Z step ++ ")")%string.
(** model_builder_FD.py 11-12 *)
Definition fd_dx_rule (coord : string) : string :=
  ("self.dx[self.coordinates.index('" ++ coord ++ "')]")%string.

Section Render.
  Variable slice_rule : string -> Z -> string.

  (** 329-332: the loop, each slice followed by ',' *)
  Fixpoint slices (xs : list string) (ds : list Q) : res (list string) :=
    match xs, ds with
    | _, [] => Ok []
    | [], _ :: _ => Err IndexError
    | x :: xs, d :: ds =>
        match as_integer d with
        | None => Err AssertionError
        | Some s => r <- slices xs ds ;; Ok (slice_rule ("'" ++ x ++ "'")%string s :: r)
        end
    end.

  (** 324-336.  [code[:-1]] removes the last comma: the slices are joined by ','. *)
  Definition spatial_part (xs : list string) (ds : list Q) : res string :=
    if existsb (fun d => negb (Qeq_bool d 0)) ds
    then l <- slices xs ds ;; Ok ("[np.ix_(" ++ join "," l ++ ")]")%string
    else Ok ""%string.

  (** finite_difference.py 289-338 *)
  Definition code_regular_function (func : string) (xs : list string) (ds : list Q) : res string :=
    let code := clean_latex_name func in
    if existsb (String.eqb "t") xs
    then
      match xs, ds with
      | x0 :: xs', d0 :: ds' =>
          if String.eqb x0 "t"
          then match as_integer d0 with
               | None => Err AssertionError
               | Some s => p <- spatial_part xs' ds' ;; Ok (code ++ time_tag s ++ p)%string
               end
          else Err AssertionError
      | _, _ => Err IndexError
      end
    else p <- spatial_part xs ds ;; Ok (code ++ p)%string.
End Render.

(** ** finite_difference.py 355-373: the text of the expression once the functions have
    been replaced, then the spacings, in the order of [loc_x_dx] *)
Definition replace_spacings (dx_rule : string -> string) (loc : list string) (code : string) : string :=
  fold_left (fun code xi => replace ("d" ++ xi) (dx_rule xi) code) loc code.

(** ** model_builder.py: variable names *)
(** 17-18 (functions), 67-68 (constants), 81-82 (coordinates) *)
Definition keyvar (name : string) : string := clean_latex_name name.
(** 29-30 *)
Definition trend_name (name : string) : string := ("d" ++ keyvar name)%string.
(** 45-49; the coordinate is printed as it is *)
Definition derivative_name (name : string) (orders : list (string * nat)) : string :=
  ("D" ++ keyvar name ++ "_" ++
   join "_" (map (fun co => fst co ++ "_o" ++ str_nat (snd co)) orders))%string.
