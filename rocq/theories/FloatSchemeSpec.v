(** How far a computation in double precision may be from the exact one: running bounds of magnitudes and errors. *)
From Coq Require Import List ZArith Reals.
From Flocq Require Import Core.Core IEEE754.BinarySingleNaN.
From Verif Require Import PyBase SchemesSpec FloatModel FloatSpec FloatSchemeModel.
Import ListNotations.
Open Scope R_scope.

(** half the distance from 1 to the next double, and half the smallest positive one *)
Definition unit_roundoff : R := / 9007199254740992.
Definition underflow : R := bpow radix2 (-1075).
(** far from overflow *)
Definition limit : R := bpow radix2 1000.

(** What is known of a computed number: the exact value is at most [mag] in absolute value and the computed one is
    within [err] of it; both are at least [low] in absolute value; nothing overflows if [ok]. *)
Record eb := EB { mag : R; err : R; low : R; ok : Prop }.
Definition top (b : eb) : R := mag b + err b.
Definition near (xh : b64) (x : R) (b : eb) : Prop :=
  fin xh /\ Rabs (v xh - x) <= err b /\ Rabs x <= mag b /\ low b <= Rabs (v xh) /\ low b <= Rabs x.

(** the error of one operation whose exact result is at most [m] *)
Definition rounding (m : R) : R := unit_roundoff * m + underflow.
Definition eb_exact (m : R) : eb := EB m 0 0 True.
Definition eb_int (z : Z) : eb := EB (Rabs (IZR z)) 0 (Rabs (IZR z)) (Z.abs z <= 2 ^ 53)%Z.
Definition eb_neg (a : eb) : eb := EB (mag a) (err a) (low a) (ok a).
Definition eb_add (a b : eb) : eb :=
  EB (mag a + mag b) (err a + err b + rounding (top a + top b)) 0 (ok a /\ ok b /\ top a + top b <= limit).
Definition eb_mul (a b : eb) : eb :=
  EB (mag a * mag b) (err a * top b + mag a * err b + rounding (top a * top b)) 0
     (ok a /\ ok b /\ top a * top b <= limit).
Definition eb_div (a b : eb) : eb :=
  EB (mag a / low b) (err a / low b + mag a * err b / low b ^ 2 + rounding (top a / low b)) 0
     (ok a /\ ok b /\ 0 < low b /\ top a / low b <= limit).
Definition eb_ops : pops eb := POps eb_int eb_neg eb_add eb_add eb_mul eb_div.
(** the exact operations *)
Definition real_ops : pops R := POps IZR Ropp Rplus Rminus Rmult Rdiv.

(** arrays, compared at the entries [D] *)
Section Arrays.
  Context {I : Type}.
  Variable D : I -> Prop.
  Definition anear (ah : I -> b64) (a : I -> R) (b : eb) : Prop := forall i, D i -> near (ah i) (a i) b.
  (** the trend in double precision [g] follows the exact one [f], within the bounds [bt time state] *)
  Definition accurate (g : b64 -> (I -> b64) -> res (I -> b64)) (f : R -> (I -> R) -> res (I -> R)) (bt : eb -> eb -> eb) : Prop :=
    forall th t b sh s b', near th t b -> anear sh s b' -> ok (bt b b') ->
      exists kh k, g th sh = Ok kh /\ f t s = Ok k /\ anear kh k (bt b b').
  (** the same of one step of a scheme, with the bounds of the time, the state and the increment *)
  Definition accurate_step (g : b64 -> (I -> b64) -> b64 -> res (I -> b64)) (f : R -> (I -> R) -> R -> res (I -> R))
      (bs : eb -> eb -> eb -> eb) : Prop :=
    forall th t b sh s b' dh d b'', near th t b -> anear sh s b' -> near dh d b'' -> ok (bs b b' b'') ->
      exists rh r, g th sh dh = Ok rh /\ f t s d = Ok r /\ anear rh r (bs b b' b'').
  Definition bounded (M : R) (a : I -> R) : Prop := forall i, D i -> Rabs (a i) <= M.
  Definition close (e : R) (a b : I -> R) : Prop := forall i, D i -> Rabs (a i - b i) <= e.
  (** one step multiplies a difference of states at most by [K] *)
  Definition expands (f : R -> (I -> R) -> R -> res (I -> R)) (M K H : R) : Prop :=
    forall t d x y x' y' e, 0 <= d <= H -> bounded M x -> bounded M y -> f t x d = Ok x' -> f t y d = Ok y' ->
      close e x y -> close (K * e) x' y'.
End Arrays.

(** the bounds of the schemes for a trend of bounds [bt] *)
Section Schemes.
  Variable bt : eb -> eb -> eb.
  Definition eb_half : eb := EB (/ 2) 0 (/ 2) True.
  (** the trend at a computed time and state *)
  Definition eb_trend (t s : eb) : eb := EB (mag (bt t s)) (err (bt t s)) (low (bt t s)) (ok t /\ ok s /\ ok (bt t s)).
  Definition eb_euler (t s d : eb) : eb := eb_add s (eb_mul d (eb_trend t s)).
  Definition eb_rk2 (t s d : eb) : eb :=
    eb_add s (eb_mul d (eb_trend (eb_add t (eb_mul eb_half d)) (eb_add s (eb_mul (eb_trend t s) (eb_mul d eb_half))))).
  Definition eb_rk4 (t s d : eb) : eb :=
    let k1 := eb_trend t s in
    let k2 := eb_trend (eb_add t (eb_mul d eb_half)) (eb_add s (eb_mul (eb_mul d eb_half) k1)) in
    let k3 := eb_trend (eb_add t (eb_mul d eb_half)) (eb_add s (eb_mul (eb_mul d eb_half) k2)) in
    let k4 := eb_trend (eb_add t d) (eb_add s (eb_mul d k3)) in
    eb_add s (eb_mul (eb_add (eb_add (eb_add k1 (eb_mul k2 (eb_int 2))) (eb_mul k3 (eb_int 2))) k4) (eb_div d (eb_int 6))).
End Schemes.

(** the bounds of a trend given by one expression *)
Definition eb_stencil {J : Type} (shifts : list J) (params : nat -> eb) (e : pexp) (_ s : eb) : eb :=
  peval eb_ops (fun k => match nth_error shifts k with Some _ => s | None => params (k - length shifts)%nat end) e.

(** the error after [k] steps that multiply it by [K] and add [rho], from [e0] *)
Fixpoint accumulated (K rho e0 : R) (k : nat) : R :=
  match k with O => e0 | S j => K * accumulated K rho e0 j + rho end.

(** a window of finite doubles, at most [T] in absolute value, never decreasing, by steps of at most [H] *)
Record fruns (T H : R) (w : list b64) : Prop := {
  fr_fin : forall t, In t w -> fin t /\ Rabs (v t) <= T;
  fr_step : forall k t t', nth_error w k = Some t -> nth_error w (S k) = Some t' -> 0 <= v t' - v t <= H;
  fr_some : w <> [] }.
(** the increment given to the scheme is the rounded difference *)
Definition eb_step (H : R) : eb := EB H (rounding H) 0 (H <= limit).

(** leapfrog: the new state *)
Definition eb_leapfrog (bt : eb -> eb -> eb) (t s0 s1 d : eb) : eb :=
  eb_add s0 (eb_mul (eb_trend bt t s1) (eb_mul (eb_int 2) d)).

(** the schemes that need one state *)
Definition fonestep {I} (s : onestep) : ftrend I -> b64 -> farr I -> b64 -> res (farr I) :=
  match s with SEuler => feuler | SRk2 => frk2 | SRk4 => frk4 end.
Definition eb_onestep (s : onestep) : (eb -> eb -> eb) -> eb -> eb -> eb -> eb :=
  match s with SEuler => eb_euler | SRk2 => eb_rk2 | SRk4 => eb_rk4 end.

(** the array of one field on a periodic line of [n] points, and its neighbours *)
Definition line (n : nat) (i : list nat) : Prop := exists j, (j < n)%nat /\ i = [O; j].
Definition next (n : nat) (i : list nat) : list nat := match i with [f; j] => [f; ((j + 1) mod n)%nat] | _ => i end.
Definition prev (n : nat) (i : list nat) : list nat := match i with [f; j] => [f; ((j + n - 1) mod n)%nat] | _ => i end.
Definition neighbours (n : nat) : list (list nat -> list nat) := [fun i => i; next n; prev n].
(** the names of the centred second difference: the field at a point and its two neighbours, then the parameters *)
Definition names3 (a b c : R) (params : nat -> R) (k : nat) : R :=
  match k with O => a | 1%nat => b | 2%nat => c | S (S (S q)) => params q end.
(** the sum over a line of four points *)
Definition sum4 (s : list nat -> R) : R := s [O; O] + s [O; 1%nat] + s [O; 2%nat] + s [O; 3%nat].

(** the real number an expression stands for *)
Fixpoint rvalue (env : nat -> R) (e : pexp) : R :=
  match e with
  | PInt z => IZR z
  | PVar k => env k
  | PNeg a => - rvalue env a
  | PAdd a b => rvalue env a + rvalue env b
  | PSub a b => rvalue env a - rvalue env b
  | PMul a b => rvalue env a * rvalue env b
  | PDiv a b => rvalue env a / rvalue env b
  end.
