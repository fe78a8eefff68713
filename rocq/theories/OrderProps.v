(** Properties C20 and C97: accuracy of the time schemes and of the forecasts on smooth dynamics
    dy/dt = f(t, y), for states that are arrays over any index type. *)
From Coq Require Import List Arith Reals Lra Lia.
From Verif Require Import PyBase Scalars SchemesModel SchemesSpec ForecastModel FDReal OrderSpec OrderProofs OrderLocal OrderGlobal OrderMain.
Import ListNotations.
Open Scope R_scope.

Section Props.
  Context {I : Type}.
  Variables (f : R -> (I -> R) -> I -> R) (a b : R) (y : R -> I -> R).

  (** C20: one step of euler, rk2, rk4 is of order 1, 2, 4 *)
  Theorem C20_euler : @smooth I 2 a b y -> @solves I f a b y -> @step_order I SEuler f a b y 1.
  Proof. exact (euler_order f a b y). Qed.
  Theorem C20_rk2 : @smooth I 3 a b y -> @solves I f a b y -> @lipschitz_near I f a b y -> @step_order I SRk2 f a b y 2.
  Proof. exact (rk2_order f a b y). Qed.
  Theorem C20_rk4 : @smooth I 5 a b y -> @solves I f a b y -> @differentiable_near I f a b y -> @step_order I SRk4 f a b y 4.
  Proof. exact (rk4_order f a b y). Qed.
  Theorem C20_leapfrog : @smooth I 3 a b y -> @solves I f a b y ->
    exists C, forall t h, a < t - h -> t + h < b -> 0 < h ->
      exists u, leapfrog (@pure RF I f) t [y (t - h); y t] h = Ok [y t; u] /\ @within I (@vsub RF I u (y (t + h))) (C * h ^ 3).
  Proof. exact (leapfrog_local f a b y). Qed.

  (** C97: a forecast over any window of small steps converges with the order of the scheme *)
  Theorem C97_euler : @smooth I 2 a b y -> @solves I f a b y -> @lipschitz_near I f a b y -> @forecast_order I SEuler f a b y 1.
  Proof. exact (euler_converges f a b y). Qed.
  Theorem C97_rk2 : @smooth I 3 a b y -> @solves I f a b y -> @lipschitz_near I f a b y -> @forecast_order I SRk2 f a b y 2.
  Proof. exact (rk2_converges f a b y). Qed.
  Theorem C97_rk4 : @smooth I 5 a b y -> @solves I f a b y -> @lipschitz_near I f a b y -> @differentiable_near I f a b y ->
    @forecast_order I SRk4 f a b y 4.
  Proof. exact (rk4_converges f a b y). Qed.
End Props.

(** The orders are not better than that: for du/dt = u, no scheme reaches one more order. *)
Theorem C20_one_more_refuted : forall s, exists f a b y,
  @smooth unit (S (S (onestep_order s))) a b y /\ @solves unit f a b y /\ @lipschitz_near unit f a b y
  /\ @differentiable_near unit f a b y /\ ~ @step_order unit s f a b y (S (onestep_order s)).
Proof.
  intros s. exists grow, (-1), 1, expo.
  exact (conj (exp_smooth _) (conj exp_solves (conj grow_lipschitz (conj grow_differentiable (sharp s))))).
Qed.

(** du/dt = u^2, dv/dt = 2 u v with u = 1/(2-t), v = 1/(2-t)^2 on ]-1, 1[ meets all the hypotheses *)
Example blow_hypotheses : @smooth bool 5 (-1) 1 hyp /\ @solves bool blow (-1) 1 hyp
  /\ @lipschitz_near bool blow (-1) 1 hyp /\ @differentiable_near bool blow (-1) 1 hyp.
Proof. exact (conj (hyp_smooth 5) (conj hyp_solves (conj blow_lipschitz blow_differentiable))). Qed.
Example blow_rk4 : @forecast_order bool SRk4 blow (-1) 1 hyp 4.
Proof. exact (C97_rk4 _ _ _ _ (hyp_smooth 5) hyp_solves blow_lipschitz blow_differentiable). Qed.
Example blow_window : steps_below (1 / 4) [0; 1 / 4; 3 / 8].
Proof. cbn. lra. Qed.

Print Assumptions C20_euler.
Print Assumptions C20_rk2.
Print Assumptions C20_rk4.
Print Assumptions C20_leapfrog.
Print Assumptions C97_euler.
Print Assumptions C97_rk2.
Print Assumptions C97_rk4.
Print Assumptions C20_one_more_refuted.
