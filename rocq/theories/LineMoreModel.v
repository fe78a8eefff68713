(** The two other systems of one coordinate of /repo/src/sympkf/symbolic/dynamics.py; the models generated from
    them are [LineModel.generated_trend] of these systems. *)
From Coq Require Import List String QArith.
From Verif Require Import PyBase SymModel PDEModel LineModel.
Import ListNotations.
Close Scope Q_scope.
Open Scope nat_scope.
Open Scope string_scope.
Open Scope list_scope.

(** dynamics.py 11 *)
Definition line_eta : sx := SSym Plain "\eta".
(** 19-21 *)
Definition kuramoto : list equation :=
  [(SDer line_u [("t", 1)],
    SAdd [SMul [SNum (-1); line_u; SDer line_u [("x", 1)]]; SMul [SNum (-1); line_kappa; SDer line_u [("x", 2)]];
          SMul [SNum (-1); line_eta; SDer line_u [("x", 4)]]])].
(** 28: c = Function('u')(t,x) *)
Definition line_c : sx := SApp "u" [time; SSym Plain "x"].
(** 29: u = Function('u')(x) *)
Definition line_wind : sx := SApp "u" [SSym Plain "x"].
(** 31-33 *)
Definition line_advection : list equation :=
  [(SDer line_c [("t", 1)], SMul [SNum (-1); line_wind; SDer line_c [("x", 1)]])].
