(** The systems advection_in_2D and advection_in_3D of /repo/src/sympkf/symbolic/dynamics.py; the
    models generated from them are [LineModel.generated_trend] of these systems.  A product is the
    list of its factors and a sum the list of its terms, in the order of the source. *)
From Coq Require Import List String QArith.
From Verif Require Import PyBase SymModel PDEModel.
Import ListNotations.
Close Scope Q_scope.
Open Scope nat_scope.
Open Scope string_scope.
Open Scope list_scope.

(** which of the two systems: advection_in_2D (dynamics.py 43-45) or advection_in_3D (68-70) *)
Inductive advect := Plane | Space.
(** CoordinateSystem((x,y)), 37; CoordinateSystem((x,y,z)), 61 *)
Definition axes (c : advect) : list string := match c with Plane => ["x"; "y"] | Space => ["x"; "y"; "z"] end.
(** the coordinates as symbols, dynamics.py 10 and 60 *)
Definition axis_symbols (c : advect) : list sx := map (SSym Plain) (axes c).
(** 39; 63 *)
Definition carried (c : advect) : sx := SApp "c" (time :: axis_symbols c).
(** the names of the winds, dynamics.py 40-41 and 64-66 *)
Definition winds (c : advect) : list string := match c with Plane => ["u"; "v"] | Space => ["u"; "v"; "w"] end.
(** one wind, a function of the coordinates without the time, dynamics.py 40-41 and 64-66 *)
Definition wind (c : advect) (name : string) : sx := SApp name (axis_symbols c).
(** - name * Derivative(c,axis) *)
Definition transport (c : advect) (name axis : string) : sx :=
  SMul [SNum (-1); wind c name; SDer (carried c) [(axis, 1)]].
(** 43-45; 68-70 *)
Definition advection (c : advect) : list equation :=
  match c with
  | Plane => [(SDer (carried c) [("t", 1)], SAdd [transport c "u" "x"; transport c "v" "y"])]
  | Space => [(SDer (carried c) [("t", 1)], SAdd [transport c "u" "x"; transport c "v" "y"; transport c "w" "z"])]
  end.
