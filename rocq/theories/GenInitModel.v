(** The constructor of a class written by ManifoldModelBuilder
    (/repo/src/sympkf/symbolic/templates/body_ManifoldModelBuilder.py 2-50) and the time scheme that
    the constructors of both kinds of generated classes select (the first statement,
    body_ManifoldModelBuilder.py 4 and body_FDModelBuilder.py 4, with model.py 39-61). *)
From Coq Require Import List Arith Bool String.
From Verif Require Import PyBase SchemesModel.
Import ListNotations.
Open Scope string_scope.
Open Scope list_scope.
Open Scope py_scope.

Section Init.
  Variable V : Type.                              (* values given by the user *)
  Inductive arg := Str (s : string) | Val (v : V).   (* keyword arguments: a str or anything else *)
  Inductive attr := NaN | BaseSpace | Given (a : arg).
  Definition kwargs := list (string * arg).        (* the keys of a call are distinct *)

  (** model.py 39-48: Model.__init__(time_scheme='rk4', **kwargs).  A key that is not a str is not in
      the table of schemes. *)
  Definition base_init (kw : kwargs) : res scheme_id :=
    match dget string_dec "time_scheme" kw with
    | None => model_init "rk4"
    | Some (Str s) => model_init s
    | Some (Val _) => Err ValueError
    end.
  (** body_FDModelBuilder.py 4: super().__init__( **kwargs) *)
  Definition scheme_FD (kw : kwargs) : res scheme_id := base_init kw.
  (** body_ManifoldModelBuilder.py 4: super().__init__() *)
  Definition scheme_Manifold (kw : kwargs) : res scheme_id := base_init [].

  (** 17-24, 37-44: nan, then the keywords whose name is declared *)
  Definition set_block (names : list string) (kw : kwargs) (attrs : dict string attr) : dict string attr :=
    let attrs := fold_left (fun a n => dset string_dec n NaN a) names attrs in
    fold_left (fun a kv => if lmem string_dec (fst kv) names then dset string_dec (fst kv) (Given (snd kv)) a else a)
              kw attrs.
  (** 26-29, 46-49: the names warned about; [is_nan v] is [v is np.nan] for a value of the user *)
  Variable is_nan : V -> bool.
  (** [getattr(self, name) is np.nan], templates/body_ManifoldModelBuilder.py 28, 48 *)
  Definition nan_attr (a : option attr) : bool :=
    match a with Some NaN => true | Some (Given (Val v)) => is_nan v | _ => false end.
  (** the warnings printed, templates/body_ManifoldModelBuilder.py 27-29, 47-49 *)
  Definition warn_block (names : list string) (attrs : dict string attr) : list string :=
    filter (fun n => nan_attr (dget string_dec n attrs)) names.

  (** the object built by templates/body_ManifoldModelBuilder.py 2-50 *)
  Record instance := { i_scheme : scheme_id; i_attrs : dict string attr; i_warned : list string }.
  (** 2-50.  [dimension] is base_space.dimension.  The blocks of the constants are absent from the text
      when nothing is declared: empty tuples. *)
  Definition init_Manifold (coords cfuncs consts : list string) (dimension : nat) (kw : kwargs) : res instance :=
    s <- scheme_Manifold kw ;;
    if negb (Nat.eqb dimension (List.length coords)) then Err AssertionError
    else
      let a0 := [("base_space", BaseSpace)] in
      let a1 := set_block cfuncs kw a0 in
      let w1 := warn_block cfuncs a1 in
      let a2 := set_block consts kw a1 in
      let w2 := warn_block consts a2 in
      Ok {| i_scheme := s; i_attrs := a2; i_warned := w1 ++ w2 |}.
End Init.
Arguments Str {V}. Arguments Val {V}. Arguments NaN {V}. Arguments BaseSpace {V}. Arguments Given {V}.
