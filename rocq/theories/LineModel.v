(** Two systems of /repo/src/sympkf/symbolic/dynamics.py and the models generated from them.

    [generated_trend] is the method trend of the generated class seen as a function of the
    state, the array of all the fields (templates/body_FDModelBuilder.py, model_builder.py):
    the index [k; j..] is the entry j.. of the field number k.  It composes PDEModel (PDESystem),
    CodegenModel (the text of the method and its run), ConsistModel (the code of a derivative).
    Simplifications: exact real arithmetic; the cache of index at the call is the cache after
    some calls; no exogenous function. *)
From Coq Require Import List Arith ZArith QArith Qreals Reals String.
From Verif Require Import PyBase Scalars FieldFacts SymModel PDEModel CodegenModel FDExprModel GridModel ConsistSpec ConsistModel FDReal.
Import ListNotations.
Close Scope Q_scope.
Open Scope nat_scope.
Open Scope string_scope.
Open Scope list_scope.
Open Scope py_scope.

(** dynamics.py 10-13 *)
Definition line_u : sx := SApp "u" [time; SSym Plain "x"].
(** dynamics.py 11 *)
Definition line_kappa : sx := SSym Plain "\kappa".
(** 15-17 *)
Definition burgers : list equation :=
  [(SDer line_u [("t", 1)],
    SAdd [SMul [SNum (-1); line_u; SDer line_u [("x", 1)]]; SMul [line_kappa; SDer line_u [("x", 2)]]])].
(** 23-25 *)
Definition diffusion : list equation :=
  [(SDer line_u [("t", 1)], SMul [line_kappa; SDer line_u [("x", 2)]])].

Section Generated.
  Variables (enum : list sx -> list sx) (x : nat -> R) (ord : list datom -> list datom).
  Variables (rpow : R -> R -> R) (coords : list string) (g : @grid RF).
  Variable caches : R -> list (string * nat) -> (list nat -> R) -> cache.
  Variable attr : string -> res (list nat -> R).

  (** [state[k]]: the row of one prognostic function, templates/footer.py 19 *)
  Definition row (state : list nat -> R) (k : nat) : list nat -> R := fun js => state (k :: js).
  (** the array dstate as its rows, templates/footer.py 9, 13 *)
  Definition stack (rows : list (list nat -> R)) : list nat -> R :=
    fun i => match i with k :: js => nth k rows (fun _ => 0%R) js | [] => 0%R end.

  (** the method trend of the generated class, templates/footer.py 2-62, on the grid of templates/body_FDModelBuilder.py *)
  Definition generated_trend (eqs : list equation) (t : R) (state : list nat -> R) : res (list nat -> R) :=
    S <- pde_system enum eqs ;;
    prog <- trend_program enum S eqs ;;
    r <- run_trend (list nat -> R) a_num a_add a_mul (a_pow rpow) (fun _ => 0%R) (fun _ => 1%R)
           (fun v a => @derivative_code RF x ord coords g (caches t v a) v a) attr None prog
           (map (row state) (seq 0 (List.length (s_prognostic S)))) ;;
    Ok (stack (fst r)).
End Generated.
