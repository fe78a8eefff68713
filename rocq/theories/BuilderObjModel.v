(** The object ModelBuilder and its caches: /repo/src/sympkf/symbolic/model_builder.py 120-224 (constructor, lazy
    properties), 226-280 (pseudo-algebraic system, trend code), 282-334 (code, write_module), and the list of
    equations that the PDESystem keeps: /repo/src/sympkf/symbolic/util.py 165-170.

    The attribute equations of a PDESystem is the list given by the caller (the same object when it is a list): a
    history of an object is made of reads of the properties, of changes of that list in place, and of assignments
    of the attributes class_name and pde_system.  Simplified: the sets of the system are not changed in place; a
    cached list of Meta objects is represented by the set it was made from (the iteration order of a set is a
    function of the set); the printer of SymPy and the code of a derivative are functions. *)
From Coq Require Import List Arith Bool String.
From Verif Require Import PyBase SymModel PDEModel StrModel CodegenModel JinjaModel TemplateText BuilderModel.
Import ListNotations.
Open Scope string_scope.
Open Scope list_scope.
Open Scope py_scope.

(** the attributes of the object, model_builder.py 120-145 and util.py 165-195 *)
Record obj := {
  o_sys : pdes; o_eqs : list equation; o_class : string;
  c_functions : option (list sx); c_prognostic : option (list sx); c_constant : option (list sx); c_exogenous : option (list sx);
  c_constants : option (list sx); c_derivatives : option (list sx); c_coordinates : option (list sx);
  c_pseudo : option (list equation); c_trend : option (list string); c_code : option string }.

(** 127-133: the name of the class; [name] is the argument class_name, [system_name] the name of the system, util.py 172 *)
Definition class_of (name : option string) (system_name : string) : string :=
  match name with Some s => s | None => if String.eqb system_name "" then "NumModel" else system_name end.
(** 120-145, for a system already built *)
Definition new_obj (S : pdes) (eqs : list equation) (cls : string) : obj :=
  {| o_sys := S; o_eqs := eqs; o_class := cls; c_functions := None; c_prognostic := None; c_constant := None; c_exogenous := None;
     c_constants := None; c_derivatives := None; c_coordinates := None; c_pseudo := None; c_trend := None; c_code := None |}.
(** 122-125 with util.py 165-195: the equations are made a system, which may fail *)
Definition new_from (enum : list sx -> list sx) (eqs : list equation) (name : option string) : res obj :=
  S <- pde_system enum eqs ;; Ok (new_obj S eqs (class_of name "")).

(** the properties that cannot fail: 147-152, 183-210, 219-224 *)
Inductive part := PFunctions | PPrognostic | PConstant | PExogenous | PConstants | PCoordinates.
(** the attribute of the system each of them is made from: 151, 188, 196, 203, 209, 223 *)
Definition source_of (p : part) (S : pdes) : list sx :=
  match p with PFunctions => s_functions S | PPrognostic => s_prognostic S | PConstant => s_constant S | PExogenous => s_exogenous S
             | PConstants => s_constants S | PCoordinates => s_spatial S end.
(** the attribute that caches it: 136-142 *)
Definition cached (p : part) (o : obj) : option (list sx) :=
  match p with PFunctions => c_functions o | PPrognostic => c_prognostic o | PConstant => c_constant o | PExogenous => c_exogenous o
             | PConstants => c_constants o | PCoordinates => c_coordinates o end.
(** the assignment of that attribute: 150, 187, 195, 202, 209, 222 *)
Definition put (p : part) (l : list sx) (o : obj) : obj :=
  {| o_sys := o_sys o; o_eqs := o_eqs o; o_class := o_class o;
     c_functions := match p with PFunctions => Some l | _ => c_functions o end;
     c_prognostic := match p with PPrognostic => Some l | _ => c_prognostic o end;
     c_constant := match p with PConstant => Some l | _ => c_constant o end;
     c_exogenous := match p with PExogenous => Some l | _ => c_exogenous o end;
     c_constants := match p with PConstants => Some l | _ => c_constants o end;
     c_derivatives := c_derivatives o;
     c_coordinates := match p with PCoordinates => Some l | _ => c_coordinates o end;
     c_pseudo := c_pseudo o; c_trend := c_trend o; c_code := c_code o |}.
(** reading one of these properties: 147-152, 183-210, 219-224 *)
Definition touch (p : part) (o : obj) : obj := match cached p o with Some _ => o | None => put p (source_of p (o_sys o)) o end.
(** the assignment of _spatial_derivatives, 215 *)
Definition put_derivatives (l : list sx) (o : obj) : obj :=
  {| o_sys := o_sys o; o_eqs := o_eqs o; o_class := o_class o; c_functions := c_functions o; c_prognostic := c_prognostic o; c_constant := c_constant o;
     c_exogenous := c_exogenous o; c_constants := c_constants o; c_derivatives := Some l; c_coordinates := c_coordinates o;
     c_pseudo := c_pseudo o; c_trend := c_trend o; c_code := c_code o |}.
(** of _pseudo_algebraic_system 162, _trend_code 168, _code 319 *)
Definition put_texts (p : option (list equation)) (t : option (list string)) (c : option string) (o : obj) : obj :=
  {| o_sys := o_sys o; o_eqs := o_eqs o; o_class := o_class o; c_functions := c_functions o; c_prognostic := c_prognostic o; c_constant := c_constant o;
     c_exogenous := c_exogenous o; c_constants := c_constants o; c_derivatives := c_derivatives o; c_coordinates := c_coordinates o;
     c_pseudo := p; c_trend := t; c_code := c |}.
(** what the methods see: the cached values, the attributes of the present system otherwise; derivative_max_order is
    always that of the present system, 231 *)
Definition view (o : obj) : pdes :=
  let get (c : option (list sx)) (d : list sx) := match c with Some l => l | None => d end in
  let S := o_sys o in
  {| s_functions := get (c_functions o) (s_functions S); s_prognostic := get (c_prognostic o) (s_prognostic S); s_constant := get (c_constant o) (s_constant S);
     s_exogenous := get (c_exogenous o) (s_exogenous S); s_coordinates := s_coordinates S; s_spatial := get (c_coordinates o) (s_spatial S);
     s_trainable := s_trainable S; s_constants := get (c_constants o) (s_constants S); s_derivatives := get (c_derivatives o) (s_derivatives S);
     s_max_order := s_max_order S |}.

Section Object.
  Variables (enum : list sx -> list sx) (print : sx -> string) (as_code : sx -> string -> list (string * nat) -> string) (body : string).

  (** 212-217: the Meta objects of the derivatives are made when the property is first read *)
  Definition read_derivatives (o : obj) : res unit * obj :=
    match c_derivatives o with
    | Some _ => (Ok tt, o)
    | None => match mapM (meta_of_derivative as_code) (enum (s_derivatives (o_sys o))) with
              | Ok _ => (Ok tt, put_derivatives (s_derivatives (o_sys o)) o)
              | Err e => (Err e, o)
              end
    end.
  (** 240-241, the test on one equation *)
  Definition evolution (q : equation) : bool := match get_trend q with inl d => if sx_eq_dec (fst q) d then true else false | inr _ => false end.
  (** 159-163 and 226-262: the properties are read inside the loop on the equations, after the test on the first one *)
  Definition read_pseudo (o : obj) : res (list equation) * obj :=
    match c_pseudo o with
    | Some ps => (Ok ps, o)
    | None =>
        match o_eqs o with
        | [] => (Ok [], put_texts (Some []) (c_trend o) (c_code o) o)
        | q :: _ =>
            if evolution q then
              let (r, o1) := if Nat.eqb (s_max_order (o_sys o)) 0 then (Ok tt, o) else read_derivatives o in
              match r with
              | Err e => (Err e, o1)
              | Ok _ => let o2 := touch PConstants (touch PFunctions o1) in
                        match pseudo_system enum (view o2) (o_eqs o2) with
                        | Err e => (Err e, o2)
                        | Ok ps => (Ok ps, put_texts (Some ps) (c_trend o2) (c_code o2) o2)
                        end
              end
            else (Err ValueError, o)
        end
    end.
  (** 165-169 and 264-280 *)
  Definition read_trend (o : obj) : res (list string) * obj :=
    match c_trend o with
    | Some t => (Ok t, o)
    | None => let (r, o1) := read_pseudo (touch PPrognostic o) in
              match r with
              | Err e => (Err e, o1)
              | Ok ps => match mapM (trend_text (view o1) print) ps with
                         | Err e => (Err e, o1)
                         | Ok t => (Ok t, put_texts (c_pseudo o1) (Some t) (c_code o1) o1)
                         end
              end
    end.
  (** 282-319: the arguments of render are evaluated in the order of 306-317 *)
  Definition read_code (o : obj) : res string * obj :=
    match c_code o with
    | Some s => (Ok s, o)
    | None =>
        let (rd, o1) := read_derivatives (touch PConstant (touch PConstants (touch PCoordinates (touch PExogenous (touch PPrognostic o))))) in
        match rd with
        | Err e => (Err e, o1)
        | Ok _ =>
            let (rt, o2) := read_trend o1 in
            match rt with
            | Err e => (Err e, o2)
            | Ok t =>
                let S := view o2 in
                match (ds <- mapM (meta_of_derivative as_code) (enum (s_derivatives S)) ;;
                       code body {| b_class := o_class o2;
                                    b_prognostic := map (fun f => (function_keyvar f, function_trend f)) (s_prognostic S);
                                    b_exogenous := map function_keyvar (enum (s_exogenous S));
                                    b_coordinates := map constant_keyvar (enum (s_spatial S));
                                    b_constants := map constant_keyvar (enum (s_constants S));
                                    b_constant_functions := map function_keyvar (enum (s_constant S));
                                    b_derivatives := ds; b_trend := t |}) with
                | Err e => (Err e, o2)
                | Ok s => (Ok s, put_texts (c_pseudo o2) (c_trend o2) (Some s) o2)
                end
            end
        end
    end.
  (** 321-334: the file is named after the present class_name, its text is the property code *)
  Definition write_obj (o : obj) (files : dict string string) : res (dict string string) * obj :=
    let (r, o1) := read_code o in
    match r with
    | Err e => (Err e, o1)
    | Ok s => (Ok (dset string_dec (lower (o_class o1) ++ ".py")%string (licence ++ s)%string files), o1)
    end.

  (** what a user does with the object: reads of the properties (147-224, 282-286), a change in place of the list of
      equations (util.py 170), the assignments of class_name and of pde_system (attributes set at 133, 125) *)
  Inductive op := Read (p : part) | ReadDerivatives | ReadPseudo | ReadTrend | ReadCode
  | Edit (l : list equation) | Rename (s : string) | Assign (T : pdes) (l : list equation).
  (** the attributes changed by the user: pde_system (125), its equations (util.py 170), class_name (133) *)
  Definition set_user (S : pdes) (l : list equation) (s : string) (o : obj) : obj :=
    {| o_sys := S; o_eqs := l; o_class := s; c_functions := c_functions o; c_prognostic := c_prognostic o; c_constant := c_constant o;
       c_exogenous := c_exogenous o; c_constants := c_constants o; c_derivatives := c_derivatives o; c_coordinates := c_coordinates o;
       c_pseudo := c_pseudo o; c_trend := c_trend o; c_code := c_code o |}.
  (** one of these actions; an exception leaves the caches already filled (147-224, 282-319) *)
  Definition act (o : obj) (a : op) : obj :=
    match a with
    | Read p => touch p o
    | ReadDerivatives => snd (read_derivatives o)
    | ReadPseudo => snd (read_pseudo o)
    | ReadTrend => snd (read_trend o)
    | ReadCode => snd (read_code o)
    | Edit l => set_user (o_sys o) l (o_class o) o
    | Rename s => set_user (o_sys o) (o_eqs o) s o
    | Assign T l => set_user T l (o_class o) o
    end.
  (** a history of the object (147-319) *)
  Definition history (h : list op) (o : obj) : obj := fold_left act h o.
End Object.
