(** The system diffusion_in_2D of /repo/src/sympkf/symbolic/dynamics.py; the model generated from it is
    [LineModel.generated_trend] of this system.  A product is the list of its factors and a sum the list of
    its terms. *)
From Coq Require Import List String QArith.
From Verif Require Import PyBase SymModel PDEModel UtilModel.
Import ListNotations.
Close Scope Q_scope.
Open Scope nat_scope.
Open Scope string_scope.
Open Scope list_scope.

(** CoordinateSystem((x,y)), 37 *)
Definition plane : list string := ["x"; "y"].
(** the coordinates as symbols, dynamics.py 10 *)
Definition plane_symbols : list sx := map (SSym Plain) plane.
(** 48 *)
Definition kappa11 : sx := SApp "\kappa_{11}" plane_symbols.
(** dynamics.py 49 *)
Definition kappa12 : sx := SApp "\kappa_{12}" plane_symbols.
(** dynamics.py 50 *)
Definition kappa22 : sx := SApp "\kappa_{22}" plane_symbols.
(** 51 *)
Definition kappa_tensor : list (list sx) := [[kappa11; kappa12]; [kappa12; kappa22]].
(** 52 *)
Definition heat : sx := SApp "u" (time :: plane_symbols).
(** the product of a sympy Matrix and a column *)
Definition mat_vec (m : list (list sx)) (v : list sx) : list sx :=
  map (fun r => SAdd (map (fun p => SMul [fst p; snd p]) (combine r v))) m.
(** coords.div(kappa_tensor*coords.gradient(u)), 55, before doit() *)
Definition diffusion_source : res sx :=
  bind (gradient plane heat) (fun g => div plane (mat_vec kappa_tensor g)).
(** the same after doit(), 55: Leibniz on each product, the two mixed terms collected by sympy.  The order of
    the terms of the sum is ours. *)
Definition diffusion_terms : list sx :=
  [SMul [kappa11; SDer heat [("x", 2)]];
   SMul [SNum 2; kappa12; SDer heat [("x", 1); ("y", 1)]];
   SMul [kappa22; SDer heat [("y", 2)]];
   SMul [SDer kappa11 [("x", 1)]; SDer heat [("x", 1)]];
   SMul [SDer kappa12 [("y", 1)]; SDer heat [("x", 1)]];
   SMul [SDer kappa12 [("x", 1)]; SDer heat [("y", 1)]];
   SMul [SDer kappa22 [("y", 1)]; SDer heat [("y", 1)]]].
(** 54-56 *)
Definition diffusion_in_2D : list equation := [(SDer heat [("t", 1)], SAdd diffusion_terms)].
