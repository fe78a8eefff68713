(** Histories of calls on objects SymbolicPKF: what an object should answer, and which histories
    leave its closure to it alone.  Specification, not code of /repo. *)
From Coq Require Import List Arith ZArith QArith Bool String Permutation.
From Verif Require Import PyBase PartialOrderModel TreeModel PKFModel PKFSpec PKFObjModel.
Import ListNotations.
Close Scope Q_scope.
Close Scope Z_scope.
Open Scope nat_scope.
Open Scope string_scope.
Open Scope list_scope.

Section Fresh.
  Variable enum : list mi -> list mi.
  Variable enumD : tdict -> tdict.
  Variable enumC : edict -> edict.
  Variable enumF : list (fn * poly) -> list (fn * poly).
  Variable enumU : list fn -> list fn.
  Definition of_system (r : res psystem) : res answer := s <- r ;; Ok (ASystem (Some s)).

  (** the answer computed from the equations and the closure, without memory *)
  Definition fresh (coords : list string) (eqs : list poly) (closure : edict) (q : query) : res answer :=
    match q with
    | QFirst => Ok (ASystem (Some (first_order_reynolds enumF eqs)))
    | QSecond => Ok (ASystem (Some (second_order_reynolds enumF eqs)))
    | QExpectation => of_system (expectation_system enum enumC enumF coords eqs)
    | QTl => of_system (tl_expectation_system enum enumC enumF coords eqs)
    | QError => of_system (error_system enum enumC enumF coords eqs)
    | QVariance => of_system (variance_system enum enumD enumC enumF enumU coords eqs)
    | QEpsilon => of_system (epsilon_system enum enumD enumC enumF enumU coords eqs)
    | QCovariance => s <- cross_covariance_system enum enumD enumC enumF enumU coords eqs ;; Ok (ASystem s)
    | QMetric => of_system (metric_system enum enumD enumC enumF enumU coords eqs)
    | QInMetric => of_system (in_metric enum enumD enumC enumF enumU coords eqs closure)
    | QInDiffusion => of_system (in_diffusion enum enumD enumC enumF enumU coords eqs closure)
    | QInAspect => of_system (in_aspect enum enumD enumC enumF enumU coords eqs closure)
    | QInternal => d <- internal_closure enum coords eqs ;; Ok (ADict d)
    | QUnclosed => l <- unclosed_terms enum enumD enumC enumF enumU coords eqs closure ;; Ok (ATerms l)
    | QClosure => Ok (ADict closure)
    end.

  (** [x] changes the dictionary [a] otherwise than by set_closure of the object [o] *)
  Definition foreign (w : world) (o a : nat) (x : op) : Prop :=
    match x with
    | SetItem a' _ _ => a' = a
    | SetClosure o' _ => o' <> o /\ exists y, nth_error (w_objs w) o' = Some y /\ o_closure y = a
    | _ => False
    end.
  (** no operation of the history changes the closure of the object [o] otherwise than by its set_closure *)
  Fixpoint unshared (w : world) (o : nat) (h : list op) : Prop :=
    match h with
    | [] => True
    | x :: h => (forall y, nth_error (w_objs w) o = Some y -> ~ foreign w o (o_closure y) x)
                /\ unshared (snd (step enum enumD enumC enumF enumU w x)) o h
    end.

  (** the closures given to the object [o], in order *)
  Definition given (o : nat) (h : list op) : list edict :=
    flat_map (fun x => match x with SetClosure o' d => if Nat.eqb o' o then [d] else [] | _ => [] end) h.
  Definition merged (d : edict) (l : list edict) : edict := fold_left dupdate l d.
End Fresh.
