(** Histories of a ModelBuilder object. *)
From Coq Require Import List String.
From Verif Require Import PyBase SymModel PDEModel CodegenModel BuilderObjModel.
Import ListNotations.

(** the action only reads a property *)
Definition reads (a : op) : Prop := match a with Edit _ | Rename _ | Assign _ _ => False | _ => True end.
(** the action changes the list of equations or the name, or reads a property that does not come from the list of equations *)
Definition early (a : op) : Prop := match a with Read _ | ReadDerivatives | Edit _ | Rename _ => True | _ => False end.
(** the action is neither a read of the code nor an assignment of the system *)
Definition before_code (a : op) : Prop := match a with ReadCode | Assign _ _ => False | _ => True end.
(** the equations and the name after a history *)
Fixpoint last_list (l : list equation) (h : list op) : list equation :=
  match h with [] => l | Edit l' :: r => last_list l' r | Assign _ l' :: r => last_list l' r | _ :: r => last_list l r end.
Fixpoint last_name (n : string) (h : list op) : string :=
  match h with [] => n | Rename n' :: r => last_name n' r | _ :: r => last_name n r end.
(** the outcome [r] of a read against the outcome [r'] expected: the same value, or an exception in both *)
Definition agrees {A} (r r' : res A) : Prop := match r' with Ok x => r = Ok x | Err _ => exists e, r = Err e end.

(** [x] is the [s] of the old system when the property has been read, the [t] of the new one otherwise *)
Definition chosen (read : Prop) (s t x : list sx) : Prop := (read -> x = s) /\ (~ read -> x = t).
(** the system whose code a builder made for [S] gives when [T] is assigned to pde_system after the history [h] *)
Record mixture (S T : pdes) (h : list op) (V : pdes) : Prop := {
  mix_functions : chosen (In (Read PFunctions) h) (s_functions S) (s_functions T) (s_functions V);
  mix_prognostic : chosen (In (Read PPrognostic) h) (s_prognostic S) (s_prognostic T) (s_prognostic V);
  mix_constant : chosen (In (Read PConstant) h) (s_constant S) (s_constant T) (s_constant V);
  mix_exogenous : chosen (In (Read PExogenous) h) (s_exogenous S) (s_exogenous T) (s_exogenous V);
  mix_constants : chosen (In (Read PConstants) h) (s_constants S) (s_constants T) (s_constants V);
  mix_spatial : chosen (In (Read PCoordinates) h) (s_spatial S) (s_spatial T) (s_spatial V);
  mix_derivatives : chosen (In ReadDerivatives h) (s_derivatives S) (s_derivatives T) (s_derivatives V);
  mix_order : s_max_order V = s_max_order T; mix_coordinates : s_coordinates V = s_coordinates T; mix_trainable : s_trainable V = s_trainable T }.
