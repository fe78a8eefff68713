(** C113: the models generated from advection_in_2D and advection_in_3D with winds that vary: growth of the
    sum of squares under rk4, convergence, and growth without discrete divergence. *)
From Coq Require Import List Arith ZArith Bool Reals String Lia Lra Psatz Permutation FunctionalExtensionality.
From Verif Require Import PyBase Scalars FieldFacts SymModel FDExprModel FDReal GridModel GridSpec ForecastModel ForecastSpec ConsistSpec ConsistMain
  SchemesModel SchemesSpec LineModel LineSpec EnergySpec AdvectModel AdvectSpec AdvectTrend AdvectGrid AdvectConv AdvectCases WindSpec WindConv WindMain WindCases.
Import ListNotations.
Open Scope R_scope.

(** any winds: within the limit tau * sum_k max|w_k| / h_k <= 2 sqrt 2 the sum of squares grows at most like
    exp (2 K (t - t0)), where K = s exp (2 sqrt 2 + tau s) and s is half the sum over k of the largest slopes of
    w_k along its own axis; the bound does not depend on the spacings *)
Theorem C113_energy c lengths shape W enum x ord rpow g caches attr V L : advect_class c lengths shape W enum ord g caches attr ->
  (forall k js, (k < List.length shape)%nat -> in_range shape js -> Rabs (wind_along W k js) <= V k) ->
  (forall k js, (k < List.length shape)%nat -> in_range shape js ->
     Rabs (wind_along W k (next shape k js) - wind_along W k js) <= L k * step_of lengths shape k) ->
  forall tau w state sv t0, nth_error w 0 = Some t0 -> sv <> SOther -> by_steps tau w ->
  tau * over_axes shape (fun k => V k / step_of lengths shape k) <= 2 * sqrt 2 ->
  exists traj, forecast Req_EM_T Rminus (@rk4 RF (list nat)) (generated_trend enum x ord rpow (axes c) g caches attr (advection c)) w state sv = Ok traj /\
    forall t, In t w -> is_saved w sv t -> exists r, dget Req_EM_T t traj = Some r /\
      energy shape r <= exp (2 * growth (List.length shape) L tau * (t - t0)) * energy shape state.
Proof.
  intros AC HV HL tau w state sv t0. exact (model_growth c lengths shape W enum x ord rpow g caches attr AC V L HV HL tau w state sv t0).
Qed.
Print Assumptions C113_energy.

(** winds that are periodic, bounded, with bounded slopes along their own axes, taken at the points of the grid:
    within the limit the forecasts by rk4 from the values of a smooth periodic solution converge to it in root mean
    square, at the order 4 in the step and 2 in the spacing; C depends on the winds and the solution only *)
Theorem C113_converges lengths w V L t0 t1 u : variable_winds (List.length lengths) lengths w V L ->
  evolution (List.length lengths) lengths (carried_by (List.length lengths) w) t0 t1 u ->
  exists C, forall c shape enum x ord rpow (g : @grid RF) caches attr tau win state sv,
    advect_class c lengths shape (wind_arrays (List.length lengths) (g_dx g) w) enum ord g caches attr ->
    runs t0 t1 tau win -> (forall js, in_range shape js -> field state js = u O t0 none (grid_point (g_dx g) js)) ->
    0 <= tau -> tau * over_axes shape (fun k => V k / step_of lengths shape k) <= 2 * sqrt 2 -> sv <> SOther ->
    exists traj, forecast Req_EM_T Rminus (@rk4 RF (list nat)) (generated_trend enum x ord rpow (axes c) g caches attr (advection c)) win state sv = Ok traj /\
      forall t, In t win -> is_saved win sv t -> exists r, dget Req_EM_T t traj = Some r /\
        rms_error (g_dx g) shape (u O t none) r <= C * (tau ^ 4 + largest (g_dx g) ^ 2).
Proof. exact (wind_forecast lengths w V L t0 t1 u). Qed.
Print Assumptions C113_converges.

(** the zero growth of C111_energy needs winds that do not vary along their own axes: winds without discrete
    divergence, that conserve the sum of the field, and a step within the limit can increase the sum of squares *)
Theorem C113_divergence_free_refuted : exists lengths shape W g caches attr V traj r state,
  advect_class Plane lengths shape W (fun l => l) (fun l => l) g caches attr /\
  (forall js, in_range shape js -> divergence lengths shape (wind_along W) js = 0) /\
  (forall k js, (k < List.length shape)%nat -> in_range shape js -> Rabs (wind_along W k js) <= V k) /\
  1 * over_axes shape (fun k => V k / step_of lengths shape k) <= 2 * sqrt 2 /\
  forecast Req_EM_T Rminus (@rk4 RF (list nat)) (generated_trend (fun l => l) (fun _ => 0) (fun l => l) (fun a _ => a) (axes Plane) g caches attr (advection Plane)) [0; 1] state SNone = Ok traj /\
  dget Req_EM_T 1 traj = Some r /\ energy shape state < energy shape r.
Proof.
  destruct pulses_grow as (g & d & traj & r & _ & AC & E & G & Hr).
  exists [4; 1], [4%nat; 1%nat], pulses, g, (fun _ _ _ => d), (plane_attr pulses), (fun k => nth k [2; 0] 0), traj, r, pulse.
  split; [exact AC|]. split; [exact pulses_divergence|]. split; [|split; [|split; [exact E|split; [exact G|]]]].
  - intros k js Hk _. unfold wind_along, pulses. destruct k as [|[|k]]; [| |cbn in Hk; lia]; cbn; [destruct (Nat.even _)|]; rewrite ?Rabs_R0; try lra. rewrite Rabs_pos_eq; lra.
  - assert (S : 1 <= sqrt 2) by (rewrite <- sqrt_1 at 1; apply sqrt_le_1_alt; lra).
    replace (over_axes [4%nat; 1%nat] (fun k => nth k [2; 0] 0 / step_of [4; 1] [4%nat; 1%nat] k)) with 2; [lra|]. unfold over_axes, step_of. cbn. field.
  - rewrite Hr. assert (X : energy [4%nat; 1%nat] pulse = 1) by (unfold energy, field, pulse; cbn; ring). rewrite X. lra.
Qed.
Print Assumptions C113_divergence_free_refuted.

(** the winds (- sin x cos y, cos x sin y) carry their stream function; the winds (1, sin y) carry sin (x - t) *)
Example C113_cells_example t0 t1 : variable_winds 2 [2 * PI; 2 * PI] cells (fun _ => 1) (fun _ => 1) /\
  evolution 2 [2 * PI; 2 * PI] (carried_by 2 cells) t0 t1 cellular.
Proof. split; [exact cells_variable|exact (cellular_solution t0 t1)]. Qed.
Example C113_gusts_example t0 t1 : variable_winds 2 [2 * PI; 2 * PI] gusts (fun _ => 1) (fun _ => 1) /\
  evolution 2 [2 * PI; 2 * PI] (carried_by 2 gusts) t0 t1 moving.
Proof. split; [exact gusts_variable|exact (moving_solution t0 t1)]. Qed.
(** the values of the cells on 8 x 4 points of the square of side 2 pi: slopes at most 1, so that the energy of any
    field grows at most like exp (2 exp (2 sqrt 2 + tau) t) *)
Example C113_slopes_example : let W := wind_arrays 2 (spacings [2 * PI; 2 * PI] [8%nat; 4%nat]) cells in
  (forall k js, (k < 2)%nat -> in_range [8%nat; 4%nat] js -> Rabs (wind_along W k js) <= 1) /\
  (forall k js, (k < 2)%nat -> in_range [8%nat; 4%nat] js ->
     Rabs (wind_along W k (next [8%nat; 4%nat] k js) - wind_along W k js) <= 1 * step_of [2 * PI; 2 * PI] [8%nat; 4%nat] k) /\
  growth 2 (fun _ => 1) (1 / 10) = exp (2 * sqrt 2 + 1 / 10) /\
  1 / 10 * over_axes [8%nat; 4%nat] (fun k => 1 / step_of [2 * PI; 2 * PI] [8%nat; 4%nat] k) <= 2 * sqrt 2.
Proof.
  cbv zeta. pose proof PI2_1 as P1. repeat split.
  - intros k js Hk Hj. rewrite arrays_along by auto. apply (vw_speed _ _ _ _ _ cells_variable); auto.
  - intros k js Hk Hj. rewrite arrays_along by auto.
    apply (shear_grid [2 * PI; 2 * PI] cells (fun _ => 1) (fun _ => 1) cells_variable [8%nat; 4%nat] eq_refl); auto.
    + intros m [<-|[<-|[]]]; lia.
    + intros i Hi. destruct i as [|[|i]]; [| |cbn in Hi; lia]; unfold step_of; cbn -[INR PI]; apply Rmult_lt_0_compat; try lra; apply Rinv_0_lt_compat, lt_0_INR; lia.
  - unfold growth. cbn. replace ((1 + (1 + 0)) / 2) with 1 by field. rewrite Rmult_1_l, Rmult_1_r. reflexivity.
  - unfold over_axes, step_of. cbn [seq map fold_right List.length nth]. replace (INR 8) with 8 by (cbn; ring). replace (INR 4) with 4 by (cbn; ring).
    assert (S : 1 <= sqrt 2) by (rewrite <- sqrt_1 at 1; apply sqrt_le_1_alt; lra).
    assert (X : 1 / (2 * PI / 8) <= 4). { apply (Rmult_le_reg_r (2 * PI / 8)); [lra|]. unfold Rdiv at 1. rewrite Rmult_assoc, Rinv_l by lra. lra. }
    assert (Y : 1 / (2 * PI / 4) <= 4). { apply (Rmult_le_reg_r (2 * PI / 4)); [lra|]. unfold Rdiv at 1. rewrite Rmult_assoc, Rinv_l by lra. lra. }
    lra.
Qed.
(** the cells from their stream function: one step of a tenth on the 8 x 4 points *)
Example C113_converges_example : exists C g d traj r,
  forecast Req_EM_T Rminus (@rk4 RF (list nat))
    (generated_trend (fun l => l) (fun _ => 0) (fun l => l) (fun a _ => a) ["x"%string; "y"%string] g (fun _ _ _ => d) (plane_attr (wind_arrays 2 (g_dx g) cells)) (advection Plane))
    [0; 1 / 10] (fun i => cellular O 0 none (grid_point (g_dx g) (tl i))) SNone = Ok traj /\
  dget Req_EM_T (1 / 10) traj = Some r /\
  rms_error (g_dx g) [8%nat; 4%nat] (cellular O (1 / 10) none) r <= C * ((1 / 10) ^ 4 + largest (g_dx g) ^ 2).
Proof.
  destruct (C113_converges [2 * PI; 2 * PI] cells (fun _ => 1) (fun _ => 1) 0 1 cellular cells_variable (cellular_solution 0 1)) as (C & HC).
  set (dx := spacings [2 * PI; 2 * PI] [8%nat; 4%nat]).
  destruct (plane_class (sample dx (cells O)) (sample dx (cells 1%nat))) as (g & d & Hd & AC).
  pose proof (dx_ok _ _ _ _ _ _ _ _ _ AC) as Edx. fold dx in Edx.
  change [sample dx (cells O); sample dx (cells 1%nat)] with (wind_arrays 2 dx cells) in AC. rewrite <- Edx in AC.
  destruct (HC Plane [8%nat; 4%nat] (fun l => l) (fun _ => 0) (fun l => l) (fun a _ => a) g (fun _ _ _ => d) (plane_attr (wind_arrays 2 (g_dx g) cells)) (1 / 10) [0; 1 / 10]
    (fun i => cellular O 0 none (grid_point (g_dx g) (tl i))) SNone AC) as (traj & E & H).
  - split; [reflexivity|]. split.
    + intros k t t' H H'. destruct k as [|[|k]]; cbn in H, H'; try discriminate; injection H as <-; injection H' as <-; lra.
    + intros t [<-|[<-|[]]]; lra.
  - intros js _. reflexivity.
  - lra.
  - apply C113_slopes_example.
  - discriminate.
  - destruct (H (1 / 10) ltac:(right; left; reflexivity) ltac:(right; left; reflexivity)) as (r & G & Hr).
    exists C, g, d, traj, r. auto.
Qed.
