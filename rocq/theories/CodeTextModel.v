(** The text of a finite-difference expression as Python code:
    /repo/src/sympkf/symbolic/finite_difference.py 345-373 (code_finite_difference, both loops) and 376-391, 461-465
    (class Code).

    [str(finite)] is a string; what the code needs to know of the functions of the expression is, for each of them,
    its printed name and, for each argument, its printed text, the enumeration of its symbols and its displacement.
    The iteration order of the set [finite.atoms(Function)] is the order of the list. *)
From Coq Require Import List Arith ZArith QArith Bool Ascii String.
From Verif Require Import PyBase StrModel.
Import ListNotations.
Close Scope Q_scope.
Open Scope string_scope.
Open Scope list_scope.
Open Scope nat_scope.

(** an argument of a function: its text [str(arg)], the list [list(arg.atoms(Symbol))] (util.py 435) and the
    coefficient [arg.coeff(dxi)] (finite_difference.py 229) *)
Record parg := PArg { pa_text : string; pa_symbols : list string; pa_step : Q }.
(** a function of the expression: [str(function.func)] and its arguments, finite_difference.py 306 *)
Record pfun := PFun { pf_name : string; pf_args : list parg }.

(** the printed arguments: sympy separates them by a comma and a space *)
Definition args_text (f : pfun) : string := join ", " (map pa_text (pf_args f)).
(** [str(function)], finite_difference.py 366 *)
Definition str_function (f : pfun) : string := (pf_name f ++ "(" ++ args_text f ++ ")")%string.

(** the rule of the class Code, finite_difference.py 389-391; the slice rule of 385-387 is that of
    model_builder_FD.py 7-8 *)
Definition code_dx_rule (coord : string) : string := ("self.dx['" ++ coord ++ "']")%string.

Section CodeText.
  Variable slice_rule : string -> Z -> string.
  Variable dx_rule : string -> string.

  (** [code_regular_function(function, slice_coding_rule)], 366; the coordinates are read again inside, 302 *)
  Definition code_function (f : pfun) : res string :=
    xd <- get_function_coordinates (map pa_symbols (pf_args f)) ;;
    code_regular_function slice_rule (pf_name f) (fst xd) (map pa_step (pf_args f)).

  (** 363-365: [if (xi,dxi) not in loc_x_dx: loc_x_dx.append((xi,dxi))] *)
  Definition add_spacing (loc : list (string * string)) (p : string * string) : list (string * string) :=
    if existsb (fun q => String.eqb (fst q) (fst p) && String.eqb (snd q) (snd p)) loc then loc else loc ++ [p].

  (** 361-366: the loop over the functions *)
  Fixpoint replace_functions (fs : list pfun) (loc : list (string * string)) (code : string)
    : res (list (string * string) * string) :=
    match fs with
    | [] => Ok (loc, code)
    | f :: fs =>
        xd <- get_function_coordinates (map pa_symbols (pf_args f)) ;;
        c <- code_function f ;;
        replace_functions fs (fold_left add_spacing (combine (fst xd) (snd xd)) loc) (replace (str_function f) c code)
    end.

  (** 345-373: the text [code] is [str(finite)] *)
  Definition code_finite_difference (code : string) (fs : list pfun) : res string :=
    r <- replace_functions fs [] code ;;
    Ok (fold_left (fun code p => replace (snd p) (dx_rule (fst p)) code) (fst r) (snd r)).
End CodeText.

(** ** class Code, 376-391 and 461-465: the object is the text and the functions of its expression, and its cache *)
Record code_obj := CodeObj { co_text : string; co_functions : list pfun; co_cache : option string }.
(** 378-380 *)
Definition new_code (text : string) (fs : list pfun) : code_obj := CodeObj text fs None.
(** 461-465: the property [code]; returns the text and the object afterwards *)
Definition code_property (o : code_obj) : res (string * code_obj) :=
  match co_cache o with
  | Some s => Ok (s, o)
  | None =>
      s <- code_finite_difference fd_slice_rule code_dx_rule (co_text o) (co_functions o) ;;
      Ok (s, CodeObj (co_text o) (co_functions o) (Some s))
  end.
