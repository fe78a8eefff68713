(** The builder of a system of PDEs, as the templates see it:
    /repo/src/sympkf/symbolic/model_builder.py 8-85 (Meta objects), 183-224 (lists of Meta objects),
    264-280 (trend_code), model_builder_manifold.py 4-7 (code of a derivative). *)
From Coq Require Import List Arith Bool String.
From Verif Require Import PyBase SymModel PDEModel StrModel CodegenModel JinjaModel TemplateText.
Import ListNotations.
Open Scope string_scope.
Open Scope list_scope.
Open Scope py_scope.

(** model_builder.py 51-53 and model_builder_manifold.py 6-7 *)
Definition partial_orders_text (p : list (string * nat)) : string :=
  join "," (map (fun co => ("'" ++ fst co ++ "'," ++ str_nat (snd co))%string) p).
(** model_builder_manifold.py 6-7 *)
Definition manifold_code (f : string) (p : list (string * nat)) : string :=
  ("self.base_space.diff(" ++ f ++ "," ++ partial_orders_text p ++ ")")%string.

Section Build.
  Variable enum : list sx -> list sx.   (* iteration order of the sets of the system *)
  Variable S : pdes.
  Variable eqs : list equation.
  Variable class_name : string.
  (** the printer of SymPy, and MetaDerivative.as_code of the builder (the finite differences of
      model_builder_FD.py 14-25 are modelled in StrModel and FDModel; a function of the derivative
      here) *)
  Variable print : sx -> string.
  Variable as_code : sx -> string -> list (string * nat) -> string.

  (** MetaDerivative of one derivative, model_builder.py 33-59: its key and its code *)
  Definition meta_of_derivative (d : sx) : res (string * string) :=
    match d with
    | SDer g v => p <- partial_orders v ;;
                  Ok (derivative_name (func_name g) p, as_code d (function_keyvar g) p)
    | _ => Err AttributeError
    end.
  (** 264-280: the text [str(lhs)+'[:] = '+str(rhs)] *)
  Definition trend_text (q : equation) : res string :=
    match fst q with
    | SDer f _ => x <- dgetE sx_eq_dec f (subs_trend S) ;; Ok (x ++ "[:] = " ++ print (snd q))%string
    | _ => Err AttributeError
    end.
  (** what ModelBuilder gives to the templates, model_builder.py 305-317, from the properties of 183-224 and 165-169 *)
  Definition builder_of : res builder :=
    ps <- pseudo_system enum S eqs ;;
    trend <- mapM trend_text ps ;;
    ds <- mapM meta_of_derivative (enum (s_derivatives S)) ;;
    Ok {| b_class := class_name;
          b_prognostic := map (fun f => (function_keyvar f, function_trend f)) (s_prognostic S);
          b_exogenous := map function_keyvar (enum (s_exogenous S));
          b_coordinates := map constant_keyvar (enum (s_spatial S));
          b_constants := map constant_keyvar (enum (s_constants S));
          b_constant_functions := map function_keyvar (enum (s_constant S));
          b_derivatives := ds;
          b_trend := trend |}.
End Build.
