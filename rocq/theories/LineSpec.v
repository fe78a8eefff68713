(** Vocabulary of property C109: a generated model of one periodic coordinate, a forecast with it, and
    the exact solutions of the equations. *)
From Coq Require Import List Arith Reals String Permutation.
From Verif Require Import PyBase Scalars FieldFacts SymModel FDReal FDExprModel GridModel GridSpec ConsistSpec.
Import ListNotations.
Open Scope R_scope.

(** The class generated from an equation of the function u(t,x) with the constant kappa, on [n] points of
    the period [L]: the grid [g]; the arbitrary orders [enum], [ord] of the sets of sympy; the cache of
    index before each derivative is computed, left by arbitrary calls; the attribute kappa. *)
Record line_class (L kappa : R) (n : nat) (enum : list sx -> list sx) (ord : list datom -> list datom)
    (g : @grid RF) (caches : R -> list (string * nat) -> (list nat -> R) -> cache) (attr : string -> res (list nat -> R)) : Prop := {
  lc_enum : forall l, Permutation (enum l) l;
  lc_ord : forall l, Permutation (ord l) l;
  lc_grid : @grid_init RF ["x"%string] (Some [n]) (Some [L]) = Ok g;
  lc_caches : forall t v a, exists hist, after_history ["x"%string] [n] hist (caches t v a);
  lc_kappa : attr "kappa"%string = Ok (fun _ => kappa) }.

(** the spacing of the points *)
Definition mesh (L : R) (n : nat) : R := L / INR n.
(** the array of the field u is the field [f] at the points of the grid *)
Definition sampled (L : R) (n : nat) (f : R -> R) (state : list nat -> R) : Prop :=
  forall j, (j < n)%nat -> state [O; j] = f (INR j * mesh L n).
(** every value of the array is within [B] of the field *)
Definition within (L : R) (n : nat) (B : R) (f : R -> R) (state : list nat -> R) : Prop :=
  forall j, (j < n)%nat -> Rabs (state [O; j] - f (INR j * mesh L n)) <= B.

(** a window of times from [t0], never decreasing, by steps of at most [tau], up to [t1] at most *)
Definition runs (t0 t1 tau : R) (w : list R) : Prop :=
  nth_error w 0 = Some t0 /\
  (forall k t t', nth_error w k = Some t -> nth_error w (S k) = Some t' -> t <= t' <= t + tau) /\
  (forall t, In t w -> t <= t1).

(** [u k t] is the k-th derivative in space of the solution at the time [t], of period [L] *)
Definition space_derivatives (t0 t1 : R) (m : nat) (u : nat -> R -> R -> R) : Prop :=
  forall k t x, (k < m)%nat -> t0 <= t <= t1 -> derivable_pt_lim (u k t) x (u (S k) t x).

(** a solution of D_t u = - u D_x u + kappa D_x^2 u between [t0] and [t1], four times differentiable in
    space and twice in time, these derivatives being bounded *)
Record burgers_solution (L kappa t0 t1 : R) (u : nat -> R -> R -> R) (ut utt : R -> R -> R) : Prop := {
  bs_space : space_derivatives t0 t1 4 u;
  bs_time : forall t x, t0 <= t <= t1 -> derivable_pt_lim (fun s => u O s x) t (ut t x);
  bs_time2 : forall t x, t0 <= t <= t1 -> derivable_pt_lim (fun s => ut s x) t (utt t x);
  bs_equation : forall t x, t0 <= t <= t1 -> ut t x = - u O t x * u 1%nat t x + kappa * u 2%nat t x;
  bs_period : forall t x, t0 <= t <= t1 -> u O t (x + L) = u O t x;
  bs_bounded : exists M, forall t x, t0 <= t <= t1 ->
    Rabs (u O t x) <= M /\ Rabs (u 1%nat t x) <= M /\ Rabs (u 3%nat t x) <= M /\ Rabs (u 4%nat t x) <= M /\ Rabs (utt t x) <= M }.

(** a solution of D_t u = kappa D_x^2 u between [t0] and [t1], all the derivatives being bounded *)
Record diffusion_solution (L kappa t0 t1 : R) (u : nat -> R -> R -> R) : Prop := {
  ds_space : forall k, space_derivatives t0 t1 k u;
  ds_equation : forall k t x, t0 <= t <= t1 -> derivable_pt_lim (fun s => u k s x) t (kappa * u (S (S k)) t x);
  ds_period : forall t x, t0 <= t <= t1 -> u O t (x + L) = u O t x;
  ds_bounded : forall k, exists M, forall t x, t0 <= t <= t1 -> Rabs (u k t x) <= M }.
