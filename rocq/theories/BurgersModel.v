(** The class Burgers, /repo/src/sympkf/dynamics/burgers.py. *)
From Coq Require Import List Arith ZArith QArith Bool String.
From Verif Require Import PyBase TreeModel PartialOrderModel PKFModel.
Import ListNotations.
Close Scope Q_scope.
Close Scope Z_scope.
Open Scope nat_scope.
Open Scope string_scope.
Open Scope list_scope.

(** burgers.py 13: D_t u = - u D_x u + kappa D_xx u; kappa is constant number 0 *)
Definition dynamics : list poly :=
  [ [((-1)%Q, [AJet (FField 0) []; AJet (FField 0) ["x"]]); (1%Q, [AJet (FField 0) ["x"; "x"]; ACst 0])] ].

(** burgers.py 17-18: the metric and the aspect of the field on a line *)
Definition g : fn := FMet 0 0 0.
(** burgers.py 18: the aspect *)
Definition s : fn := FAsp 0 0 0.
(** 1/s *)
Definition inv_s : fn := FInvAsp 0 0 0.

(** burgers.py 20 *)
Definition p18_metric : poly := psub (pscale 3 (pmul (pfn g) (pfn g))) (pscale 2 (pjet g ["x"; "x"])).

(** burgers.py 23, [.subs(g, 1/s).doit().expand()]: sympy replaces g by 1/s in the derivatives too
    and evaluates them; D(1/s) = - D s / s^2.  Only derivatives of powers of 1/s are needed. *)
Definition inv_datom (c : string) (a : atom) : poly :=
  match a with
  | AJet (FInvAsp i j k) [] =>
      pscale (-1) (pprod [patom (AJet (FInvAsp i j k) []); patom (AJet (FInvAsp i j k) []); patom (AJet (FAsp i j k) [c])])
  | _ => datom c a
  end.
(** burgers.py 23, [.doit()]: Leibniz on a product of powers of 1/s *)
Fixpoint inv_dmono (c : string) (m : mono) : poly :=
  match m with
  | [] => []
  | a :: r => padd (pmulm 1 r (inv_datom c a)) (pmulm 1 [a] (inv_dmono c r))
  end.
(** burgers.py 23, [.doit()]: the derivative of a sum of such products *)
Definition inv_deriv (c : string) (p : poly) : poly :=
  fold_right (fun t q => padd (pscale (fst t) (inv_dmono c (snd t))) q) [] p.
(** burgers.py 23, [.doit()]: repeated derivatives *)
Definition inv_derivs (w : word) (p : poly) : poly := fold_right inv_deriv p w.
(** burgers.py 23: the closure P18 written with the aspect *)
Definition p18_aspect : poly :=
  psubst (fun f w => if fn_eq_dec f g then inv_derivs w (pfn inv_s) else pjet f w) p18_metric.

Section Orders.
  Variables (enum : list mi -> list mi) (enumD : tdict -> tdict) (enumC : edict -> edict)
    (enumF : list (fn * poly) -> list (fn * poly)) (enumU : list fn -> list fn)
    (enumS : list (list jet) -> list (list jet)).       (* iteration of the set unclosed_terms *)

  (** burgers.py 26: [list(pkf.unclosed_terms)[0]] *)
  Definition unclosed_term : res (list jet) :=
    terms <- unclosed_terms enum enumD enumC enumF enumU ["x"] dynamics [] ;;
    match enumS terms with [] => Err IndexError | l :: _ => Ok l end.
  (** burgers.py 27-28: a second SymbolicPKF with that term closed *)
  Definition closed_in_aspect : res (list pequation) :=
    l <- unclosed_term ;; in_aspect enum enumD enumC enumF enumU ["x"] dynamics [(l, p18_aspect)].
End Orders.

(** burgers.py 30-34.  Names in a function are resolved when it is compiled: a name that no statement
    of the function binds is looked up in the enclosing functions, then in the module, then among
    the builtins.  [exec] runs in the module's namespace with a snapshot of the local variables:
    what the code binds is stored in the snapshot (4.2.2 and the note on exec in the Python reference,
    all versions from 3.6 on).  [code] is the outcome of [exec]: an exception or the names it bound. *)
Section Constructor.
  Variable V : Type.
  Notation names := (list (string * V)).
  (** burgers.py 30-34: one scope, the name or nothing *)
  Fixpoint find (k : string) (d : names) : option V :=
    match d with [] => None | (k', v) :: r => if string_dec k k' then Some v else find k r end.
  (** burgers.py 30-34: the scopes from the innermost to the builtins *)
  Fixpoint lookup (scopes : list names) (k : string) : res V :=
    match scopes with
    | [] => Err NameError
    | d :: r => match find k d with Some v => Ok v | None => lookup r k end
    end.
  (** statements of [factory]: exec(..) and return name *)
  Definition factory (code : res names) (enclosing : list names) (module builtins : names) : res V :=
    snapshot <- code ;; lookup (enclosing ++ [module; builtins]) "ClosedPKFBurgers".
  (** the variables of __init__ are self, n and factory *)
  Definition init (code : res names) (self n fact : V) (module builtins : names) (instantiate : V -> V -> res V) : res V :=
    cls <- factory code [[("self", self); ("n", n); ("factory", fact)]] module builtins ;; instantiate cls n.
End Constructor.
Arguments find {V}. Arguments lookup {V}. Arguments factory {V}. Arguments init {V}.
