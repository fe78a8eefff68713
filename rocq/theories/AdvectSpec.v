(** Vocabulary of property C111: the models generated from advection_in_2D and advection_in_3D, the
    centred scheme on a periodic grid, and the solutions for constant winds. *)
From Coq Require Import List Arith Reals String Permutation.
From Verif Require Import PyBase Scalars FieldFacts SymModel FDReal FDExprSpec FDExprModel GridModel GridSpec ConsistSpec AdvectModel.
Import ListNotations.
Open Scope R_scope.

(** The class generated from the system [c], on the periodic box of sides [lengths] with [shape] points: the
    grid [g]; the arbitrary orders [enum], [ord] of the sets of sympy; the cache of index before each
    derivative is computed, left by arbitrary calls; the attributes u, v, w, the arrays [W]. *)
Record advect_class (c : advect) (lengths : list R) (shape : list nat) (W : list (list nat -> R))
    (enum : list sx -> list sx) (ord : list datom -> list datom) (g : @grid RF)
    (caches : R -> list (string * nat) -> (list nat -> R) -> cache) (attr : string -> res (list nat -> R)) : Prop := {
  ad_enum : forall l, Permutation (enum l) l;
  ad_ord : forall l, Permutation (ord l) l;
  ad_sides : List.length lengths = List.length (axes c) /\ forall L, In L lengths -> 0 < L;
  ad_grid : @grid_init RF (axes c) (Some shape) (Some lengths) = Ok g;
  ad_caches : forall t v a, exists hist, after_history (axes c) shape hist (caches t v a);
  ad_winds : Forall2 (fun name a => attr name = Ok a) (winds c) W }.

(** the neighbours of a point along the axis number [k], modulo the number of points *)
Fixpoint replace (k v : nat) (js : list nat) : list nat :=
  match js, k with
  | [], _ => []
  | _ :: r, O => v :: r
  | j :: r, S k => j :: replace k v r
  end.
Definition next (shape : list nat) (k : nat) (js : list nat) : list nat :=
  replace k ((nth k js O + 1) mod nth k shape O)%nat js.
Definition prev (shape : list nat) (k : nat) (js : list nat) : list nat :=
  replace k ((nth k js O + nth k shape O - 1) mod nth k shape O)%nat js.
(** the spacing along the axis [k], the centred difference *)
Definition step_of (lengths : list R) (shape : list nat) (k : nat) : R := nth k lengths 0 / INR (nth k shape O).
Definition slope (lengths : list R) (shape : list nat) (k : nat) (a : list nat -> R) (js : list nat) : R :=
  (a (next shape k js) - a (prev shape k js)) / (2 * step_of lengths shape k).
(** a sum over the axes *)
Definition over_axes (shape : list nat) (f : nat -> R) : R := fold_right Rplus 0 (map f (seq 0 (List.length shape))).
(** - sum_k w_k D_k c *)
Definition transported (lengths : list R) (shape : list nat) (W : nat -> list nat -> R) (a : list nat -> R) (js : list nat) : R :=
  - over_axes shape (fun k => W k js * slope lengths shape k a js).
(** the discrete divergence of the wind *)
Definition divergence (lengths : list R) (shape : list nat) (W : nat -> list nat -> R) (js : list nat) : R :=
  over_axes shape (fun k => slope lengths shape k (W k) js).
(** the wind along the axis [k] *)
Definition wind_along (W : list (list nat -> R)) (k : nat) : list nat -> R := nth k W (fun _ => 0).
(** no component of the wind varies along its own axis *)
Definition unsheared (shape : list nat) (W : list (list nat -> R)) : Prop :=
  forall k js, (k < List.length shape)%nat -> in_range shape js -> wind_along W k (next shape k js) = wind_along W k js.

(** the field of the state *)
Definition field (state : list nat -> R) : list nat -> R := fun js => state (O :: js).
(** its sum and the sum of its squares *)
Definition mass (shape : list nat) (state : list nat -> R) : R := @gsum RF shape (field state).
Definition energy (shape : list nat) (state : list nat -> R) : R := @gsum RF shape (fun js => field state js * field state js).
(** the number of points; the root mean square of the differences with the values of [f] at the points *)
Definition points (shape : list nat) : R := fold_right (fun n r => INR n * r) 1 shape.
Definition rms_error (dx : list R) (shape : list nat) (f : point -> R) (state : list nat -> R) : R :=
  sqrt (@gsum RF shape (fun js => (field state js - f (grid_point dx js)) * (field state js - f (grid_point dx js))) / points shape).

(** the wave of four points along the axis [k]; the sum of the squares of the differences of two states *)
Definition wave (k : nat) (js : list nat) : R :=
  match (nth k js O mod 4)%nat with O => 1 | 2%nat => -1 | _ => 0 end.
Definition gap (shape : list nat) (a b : list nat -> R) : R :=
  @gsum RF shape (fun js => (field a js - field b js) * (field a js - field b js)).

(** a solution of D_t u = - sum_k w_k D_k u, [u t a] its derivative of multi-index [a] at the time [t] *)
Record transport_solution (n : nat) (lengths : list R) (w : nat -> R) (t0 t1 : R) (u : R -> multi -> point -> R) : Prop := {
  ts_space : forall t, t0 <= t <= t1 -> derivatives_of n (u t);
  ts_equation : forall a t p, t0 <= t <= t1 ->
    derivable_pt_lim (fun s => u s a p) t (- fold_right Rplus 0 (map (fun k => w k * u t (inc k a) p) (seq 0 n)));
  ts_period : forall t, t0 <= t <= t1 -> periodic lengths (u t none);
  ts_bounded : exists M : multi -> R, forall a t p, t0 <= t <= t1 -> Rabs (u t a p) <= M a }.
