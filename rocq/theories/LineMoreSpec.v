(** Vocabulary of properties C117 to C119: the classes generated from the systems of [LineMoreModel], the sum of
    a field and its error. *)
From Coq Require Import List Arith Reals String Permutation.
From Verif Require Import PyBase Scalars FieldFacts SymModel FDReal FDExprModel GridModel GridSpec ConsistSpec LineSpec SchemesModel SchemesSpec.
Import ListNotations.
Open Scope R_scope.

(** The class generated from the 1D advection, on [n] points of the period [L], with the attribute u,
    the wind. *)
Record wind_class (L : R) (wind : list nat -> R) (n : nat) (enum : list sx -> list sx) (ord : list datom -> list datom)
    (g : @grid RF) (caches : R -> list (string * nat) -> (list nat -> R) -> cache) (attr : string -> res (list nat -> R)) : Prop := {
  wc_enum : forall l, Permutation (enum l) l;
  wc_ord : forall l, Permutation (ord l) l;
  wc_grid : @grid_init RF ["x"%string] (Some [n]) (Some [L]) = Ok g;
  wc_caches : forall t v a, exists hist, after_history ["x"%string] [n] hist (caches t v a);
  wc_wind : attr "u"%string = Ok wind }.

(** The class generated from the Kuramoto-Sivashinsky equation: moreover the attribute eta. *)
Definition kuramoto_class (L kappa eta : R) (n : nat) (enum : list sx -> list sx) (ord : list datom -> list datom)
    (g : @grid RF) (caches : R -> list (string * nat) -> (list nat -> R) -> cache) (attr : string -> res (list nat -> R)) : Prop :=
  line_class L kappa n enum ord g caches attr /\ attr "eta"%string = Ok (fun _ => eta).

(** the sum of the values of the field u *)
Definition field_sum (n : nat) (state : list nat -> R) : R := fold_right Rplus 0 (map (fun j => state [O; j]) (seq 0 n)).
(** the root mean square of the distance of the values to the field [f] *)
Definition line_rms (L : R) (n : nat) (f : R -> R) (state : list nat -> R) : R :=
  sqrt (fold_right Rplus 0 (map (fun j => (state [O; j] - f (INR j * mesh L n)) ^ 2) (seq 0 n)) / INR n).

(** [u 0] is carried without change by the wind [c]: D_t u = - c D_x u, with the period [L] *)
Definition carried_by (L : R) (c : R -> R) (u : R -> R -> R) (ux ut : R -> R -> R) : Prop := forall t x,
  derivable_pt_lim (u t) x (ux t x) /\ derivable_pt_lim (fun s => u s x) t (ut t x) /\
  ut t x = - c x * ux t x /\ u t (x + L) = u t x.

(** a solution of D_t u = - u D_x u - kappa D_x^2 u - eta D_x^4 u between [t0] and [t1], six times differentiable
    in space and twice in time, these derivatives being bounded *)
Record kuramoto_solution (L kappa eta t0 t1 : R) (u : nat -> R -> R -> R) (ut utt : R -> R -> R) : Prop := {
  ks_space : space_derivatives t0 t1 6 u;
  ks_time : forall t x, t0 <= t <= t1 -> derivable_pt_lim (fun s => u O s x) t (ut t x);
  ks_time2 : forall t x, t0 <= t <= t1 -> derivable_pt_lim (fun s => ut s x) t (utt t x);
  ks_equation : forall t x, t0 <= t <= t1 -> ut t x = - u O t x * u 1%nat t x - kappa * u 2%nat t x - eta * u 4%nat t x;
  ks_period : forall t x, t0 <= t <= t1 -> u O t (x + L) = u O t x;
  ks_bounded : exists M, forall t x, t0 <= t <= t1 ->
    (forall k, (k <= 6)%nat -> Rabs (u k t x) <= M) /\ Rabs (utt t x) <= M }.
