(** The tangent linear equations of a system of partial differential equations. *)
From Coq Require Import List Arith ZArith QArith Reals String.
From Coq Require Import Permutation.
From Verif Require Import PyBase SymModel PDEModel CodegenModel CodegenSpec FDExprModel GridModel GridSpec ConsistSpec FDReal.
Import ListNotations.
Close Scope Q_scope.
Open Scope nat_scope.
Open Scope string_scope.
Open Scope list_scope.

(** right-hand sides that are polynomials in the functions and their derivatives *)
Inductive polynomial : sx -> Prop :=
| po_num q : polynomial (SNum q)
| po_sym k s : polynomial (SSym k s)
| po_app f l : polynomial (SApp f l)
| po_der f l v : polynomial (SDer (SApp f l) v)
| po_add l : Forall polynomial l -> polynomial (SAdd l)
| po_mul l : Forall polynomial l -> polynomial (SMul l)
| po_pow b (n : nat) : polynomial b -> polynomial (SPow b (SNum (Z.of_nat n # 1))).

Section Lin.
  (** the functions that vary, and the name of the perturbation of each of them *)
  Variables (varying : list sx) (pert : sx -> sx).
  Definition lin_function (f e : sx) : sx := if smem f varying then e else SNum 0.
  Definition lower (x : sx) : sx := match x with SNum (Qmake z d) => SNum (Qmake (z - 1) d) | _ => x end.
  (** the derivative of an expression along the perturbation: rules of the sum, the product, the power *)
  Fixpoint lin (e : sx) : sx :=
    match e with
    | SApp _ _ => lin_function e (pert e)
    | SDer f v => lin_function f (SDer (pert f) v)
    | SAdd l => SAdd (map lin l)
    | SMul l => SAdd ((fix product (l : list sx) : list sx :=
        match l with [] => [] | x :: r => SMul (lin x :: r) :: map (fun y => SMul [x; y]) (product r) end) l)
    | SPow b x => SMul [x; SPow b (lower x); lin b]
    | _ => SNum 0
    end.
End Lin.

(** the functions of which a system gives the evolution *)
Definition evolving (eqs : list equation) : list sx := map (fun q => match fst q with SDer f _ => f | e => e end) eqs.

(** two expressions with the same value on all arrays, whatever the discretisation of the derivatives *)
Definition same_value (rpow : R -> R -> R) (e e' : sx) : Prop := forall rho kappa delta js,
  mean (list nat -> R) a_num a_add a_mul (a_pow rpow) (fun _ => 0%R) (fun _ => 1%R) rho kappa delta e js =
  mean (list nat -> R) a_num a_add a_mul (a_pow rpow) (fun _ => 0%R) (fun _ => 1%R) rho kappa delta e' js.

(** the equations [teqs] are the tangent linear equations of [eqs], however they are written *)
Definition tangent_equations (rpow : R -> R -> R) (pert : sx -> sx) (eqs teqs : list equation) : Prop :=
  Forall2 (fun q q' => exists f, fst q = SDer f [("t", 1)] /\ fst q' = SDer (pert f) [("t", 1)] /\
    same_value rpow (snd q') (lin (evolving eqs) pert (snd q))) eqs teqs.

(** the array of the fields [u] followed by the fields [p], n of each *)
Definition stacked (n : nat) (u p : list nat -> R) (i : list nat) : R :=
  match i with k :: js => if (k <? n)%nat then u (k :: js) else p ((k - n)%nat :: js) | [] => 0%R end.

(** a finite-difference class generated from the equations [eqs], of coordinates [coords], on a grid of shape [shape]: the system and
    its names, the set of the caches of index, and what the attributes of the object hold: numbers for the constants, arrays for
    the functions of space *)
Record generated_class (coords : list string) (shape : list nat) (kappa : sx -> R) (cst : sx -> list nat -> R)
    (enum : list sx -> list sx) (eqs : list equation) (S : pdes) (ord : list datom -> list datom)
    (caches : R -> list (string * nat) -> (list nat -> R) -> cache) (attr : string -> res (list nat -> R)) : Prop := {
  gc_enum : forall l, Permutation (enum l) l;
  gc_system : pde_system enum eqs = Ok S;
  gc_names : translatable S eqs;
  gc_forcing : s_exogenous S = [];
  gc_space : forall f v c, occurs eqs (SDer f v) -> In c (map fst v) -> In c coords;
  gc_ord : forall l, Permutation (ord l) l;
  gc_caches : forall t v a, exists hist, after_history coords shape hist (caches t v a);
  gc_constants : forall c, In c (s_constants S) -> attr (constant_keyvar c) = Ok (fun _ => kappa c);
  gc_functions : forall f, In f (s_constant S) -> attr (function_keyvar f) = Ok (cst f) }.

(** the entries of the array of [n] fields on the grid *)
Definition entries (n : nat) (shape : list nat) (i : list nat) : Prop := exists k js, i = k :: js /\ (k < n)%nat /\ in_range shape js.
