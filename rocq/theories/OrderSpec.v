(** Vocabulary for the accuracy of the time schemes over the real numbers: nothing here
    mentions the schemes but [step_order] and [forecast_order], which only run them. *)
From Coq Require Import List Arith Reals.
From Verif Require Import PyBase Scalars SchemesModel SchemesSpec ForecastModel FDReal.
Import ListNotations.
Open Scope R_scope.

Section Order.
  Context {I : Type}.
  Notation A := (arr RF I).

  (** all the components of [e] are at most [rho] in absolute value *)
  Definition within (e : A) (rho : R) : Prop := forall i, Rabs (e i) <= rho.

  (** [y] has bounded derivatives of orders 1 to [n] on the interval ]a, b[ *)
  Definition smooth (n : nat) (a b : R) (y : R -> A) : Prop :=
    exists (d : nat -> R -> A) (M : R),
      (forall s, d 0%nat s = y s)
      /\ (forall k s i, (k < n)%nat -> a < s < b -> derivable_pt_lim (fun r => d k r i) s (d (S k) s i))
      /\ (forall k s, (1 <= k <= n)%nat -> a < s < b -> within (d k s) M).

  (** [y] is a solution of dy/dt = f(t, y) on ]a, b[ *)
  Definition solves (f : R -> A -> A) (a b : R) (y : R -> A) : Prop :=
    forall s i, a < s < b -> derivable_pt_lim (fun r => y r i) s (f s (y s) i).

  (** the trend is Lipschitz continuous near the solution *)
  Definition lipschitz_near (f : R -> A -> A) (a b : R) (y : R -> A) : Prop :=
    exists r L, 0 < r /\ forall s v w rho, a < s < b ->
      within (vsub v (y s)) r -> within (vsub w (y s)) r -> within (vsub v w) rho ->
      within (vsub (f s v) (f s w)) (L * rho).

  (** the trend has a derivative along the solution, itself Lipschitz continuous in time, with a
      remainder of second order *)
  Definition differentiable_near (f : R -> A -> A) (a b : R) (y : R -> A) : Prop :=
    exists (J : R -> A -> A) r L, 0 < r
      /\ (forall s, linear (J s))
      /\ (forall s e rho, a < s < b -> within e rho -> within (J s e) (L * rho))
      /\ (forall s s' e rho, a < s < b -> a < s' < b -> within e rho ->
            within (vsub (J s e) (J s' e)) (L * Rabs (s - s') * rho))
      /\ (forall s e rho, a < s < b -> rho <= r -> within e rho ->
            within (vsub (vsub (f s (vadd (y s) e)) (f s (y s))) (J s e)) (L * (rho * rho))).

  (** one step of length [h] from the solution at [t] misses the solution at [t+h] by at most
      C h^(p+1), with the same C for all times and all small enough steps *)
  Definition step_order (s : onestep) (f : R -> A -> A) (a b : R) (y : R -> A) (p : nat) : Prop :=
    exists C h0, 0 < h0 /\ forall t h, a < t -> t + h < b -> 0 < h <= h0 ->
      exists u, onestep_fun s (@pure RF I f) t (y t) h = Ok u
                /\ within (vsub u (y (t + h))) (C * h ^ S p).

  (** the times of [w] increase by steps of at most [h] *)
  Fixpoint steps_below (h : R) (w : list R) : Prop :=
    match w with
    | t :: ((t' :: _) as r) => 0 < t' - t <= h /\ steps_below h r
    | _ => True
    end.

  (** a forecast over a window of steps of at most [h], from a state at distance [delta] of the
      solution, ends and all its states are at distance C (delta + h^p) of the solution *)
  Definition forecast_order (s : onestep) (f : R -> A -> A) (a b : R) (y : R -> A) (p : nat) : Prop :=
    exists C h0, 0 < h0 /\ forall w t0 u0 sv h delta,
      0 < h <= h0 -> 0 <= delta <= h0 -> (forall t, In t (t0 :: w) -> a < t < b) -> steps_below h (t0 :: w) ->
      within (vsub u0 (y t0)) delta -> sv <> SOther ->
      exists traj, forecast Req_EM_T Rminus (@onestep_fun RF I s) (@pure RF I f) (t0 :: w) u0 sv = Ok traj
        /\ forall t u, dget Req_EM_T t traj = Some u -> within (vsub u (y t)) (C * (delta + h ^ p)).
End Order.
