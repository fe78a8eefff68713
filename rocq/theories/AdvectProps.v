(** C111: the models generated from advection_in_2D and advection_in_3D: the scheme, the budget of the
    carried field, its energy under rk4, convergence for constant winds, and instability beyond the limit. *)
From Coq Require Import List Arith ZArith Bool Reals String Lia Lra Psatz Permutation FunctionalExtensionality.
From Verif Require Import PyBase Scalars FieldFacts SymModel FDExprModel FDReal GridModel GridSpec ForecastModel ForecastSpec ConsistSpec ConsistMain
  SchemesModel SchemesSpec LineModel LineSpec EnergySpec AdvectModel AdvectSpec AdvectTrend AdvectGrid AdvectConv AdvectWave AdvectCases.
Import ListNotations.
Open Scope R_scope.

(** the trend at every point, for all winds: - sum_k w_k D_k c, with the winds at the point *)
Theorem C111_scheme c lengths shape W enum x ord rpow g caches attr : advect_class c lengths shape W enum ord g caches attr ->
  forall t state, exists r, generated_trend enum x ord rpow (axes c) g caches attr (advection c) t state = Ok r /\
    forall js, in_range shape js -> field r js = transported lengths shape (wind_along W) (field state) js.
Proof. exact (advection_trend c lengths shape W enum x ord rpow g caches attr). Qed.
Print Assumptions C111_scheme.

(** the sum of the field: its trend is the sum of (divergence of the wind) * c; when the discrete divergence is
    zero the forecasts of every scheme conserve the sum *)
Theorem C111_mass c lengths shape W enum x ord rpow g caches attr : advect_class c lengths shape W enum ord g caches attr ->
  (forall t state r, generated_trend enum x ord rpow (axes c) g caches attr (advection c) t state = Ok r ->
     mass shape r = @gsum RF shape (fun js => divergence lengths shape (wind_along W) js * field state js)) /\
  ((forall js, in_range shape js -> divergence lengths shape (wind_along W) js = 0) ->
   forall s w state sv, w <> [] -> sv <> SOther ->
   exists traj, forecast Req_EM_T Rminus (@onestep_fun RF (list nat) s) (generated_trend enum x ord rpow (axes c) g caches attr (advection c)) w state sv = Ok traj /\
     forall t, In t w -> is_saved w sv t -> exists r, dget Req_EM_T t traj = Some r /\ mass shape r = mass shape state).
Proof.
  intros AC. split; [exact (model_budget c lengths shape W enum x ord rpow g caches attr AC)|].
  intros Dv s w state sv Hw Hs. exact (model_mass c lengths shape W enum x ord rpow g caches attr AC s w state sv Hw Hs Dv).
Qed.
Print Assumptions C111_mass.

(** winds that do not vary along their own axis: rk4 never increases the sum of squares when
    tau * sum_k max|w_k| / h_k <= 2 sqrt 2 *)
Theorem C111_energy c lengths shape W enum x ord rpow g caches attr V : advect_class c lengths shape W enum ord g caches attr ->
  unsheared shape W -> (forall k js, (k < List.length shape)%nat -> in_range shape js -> Rabs (wind_along W k js) <= V k) ->
  forall tau w state sv, by_steps tau w -> tau * over_axes shape (fun k => V k / step_of lengths shape k) <= 2 * sqrt 2 -> w <> [] -> sv <> SOther ->
  exists traj, forecast Req_EM_T Rminus (@rk4 RF (list nat)) (generated_trend enum x ord rpow (axes c) g caches attr (advection c)) w state sv = Ok traj /\
    forall t, In t w -> is_saved w sv t -> exists r, dget Req_EM_T t traj = Some r /\ energy shape r <= energy shape state.
Proof.
  intros AC U HV tau w state sv B C Hw Hs. exact (model_energy c lengths shape W enum x ord rpow g caches attr AC V tau w state sv Hw Hs U HV B C).
Qed.
Print Assumptions C111_energy.

(** constant winds: under the same limit the forecasts by rk4 from the values of a smooth periodic solution
    converge to it in root mean square, at the order 4 in the step and 2 in the spacing; C depends on the solution only *)
Theorem C111_converges lengths ws t0 t1 u : transport_solution (List.length lengths) lengths (fun k => nth k ws 0) t0 t1 u ->
  exists C, forall c shape enum x ord rpow g caches attr tau w state sv,
    advect_class c lengths shape (map (fun v (_ : list nat) => v) ws) enum ord g caches attr ->
    runs t0 t1 tau w -> (forall js, in_range shape js -> field state js = u t0 none (grid_point (g_dx g) js)) ->
    0 <= tau -> tau * over_axes shape (fun k => Rabs (nth k ws 0) / step_of lengths shape k) <= 2 * sqrt 2 -> sv <> SOther ->
    exists traj, forecast Req_EM_T Rminus (@rk4 RF (list nat)) (generated_trend enum x ord rpow (axes c) g caches attr (advection c)) w state sv = Ok traj /\
      forall t, In t w -> is_saved w sv t -> exists r, dget Req_EM_T t traj = Some r /\
        rms_error (g_dx g) shape (u t none) r <= C * (tau ^ 4 + largest (g_dx g) ^ 2).
Proof. exact (advection_forecast lengths ws t0 t1 u). Qed.
Print Assumptions C111_converges.

(** a wind v along an axis of 4q points: two states that differ by a multiple of the wave (1, 0, -1, 0, ...)
    along it drift apart without bound, by rk4 beyond the limit and by euler and rk2 whatever the step *)
Theorem C111_unstable c lengths shape W enum x ord rpow g caches attr : advect_class c lengths shape W enum ord g caches attr ->
  forall k q v eps s t0 dt a b, unsheared shape W -> (k < List.length shape)%nat -> nth k shape O = (4 * q)%nat ->
  (forall js, in_range shape js -> wind_along W k js = v) -> eps <> 0 ->
  (forall js, in_range shape js -> field a js = field b js + eps * wave k js) ->
  match s with SRk4 => 2 * sqrt 2 < Rabs (dt * v / step_of lengths shape k) | _ => dt * v <> 0 end ->
  forall B, exists N0, forall N, (N0 <= N)%nat -> exists ta tb ra rb,
    forecast Req_EM_T Rminus (@onestep_fun RF (list nat) s) (generated_trend enum x ord rpow (axes c) g caches attr (advection c)) (times t0 dt N) a SNone = Ok ta /\
    forecast Req_EM_T Rminus (@onestep_fun RF (list nat) s) (generated_trend enum x ord rpow (axes c) g caches attr (advection c)) (times t0 dt N) b SNone = Ok tb /\
    dget Req_EM_T (t0 + INR N * dt) ta = Some ra /\ dget Req_EM_T (t0 + INR N * dt) tb = Some rb /\ B <= gap shape ra rb.
Proof. exact (wave_unstable c lengths shape W enum x ord rpow g caches attr). Qed.
Print Assumptions C111_unstable.

(** the classes exist: any two winds on 8 x 4 points of the square of side 2 pi *)
Example C111_class_example (a b : list nat -> R) : exists g d, init_index ["x"%string; "y"%string] [8%nat; 4%nat] = Ok d /\
  advect_class Plane [2 * PI; 2 * PI] [8%nat; 4%nat] [a; b] (fun l => l) (fun l => l) g (fun _ _ _ => d) (plane_attr [a; b]).
Proof. exact (plane_class a b). Qed.
(** a jet along x that depends on y: unsheared, without divergence, of speed at most 3 *)
Example C111_jet_example : let W := [fun js => INR (nth 1 js O); fun _ => 0] in
  unsheared [8%nat; 4%nat] W /\ (forall js, divergence [2 * PI; 2 * PI] [8%nat; 4%nat] (wind_along W) js = 0) /\
  (forall k js, (k < 2)%nat -> in_range [8%nat; 4%nat] js -> Rabs (wind_along W k js) <= nth k [3; 0] 0) /\
  (8 / 25) * over_axes [8%nat; 4%nat] (fun k => nth k [3; 0] 0 / step_of [2 * PI; 2 * PI] [8%nat; 4%nat] k) <= 2 * sqrt 2.
Proof.
  cbv zeta. pose proof PI2_1 as P1. repeat split.
  - intros k js Hk Hj. destruct k as [|[|k]]; [| |cbn in Hk; lia]; inversion Hj as [|? ? ? ? _ Hj2]; subst; inversion Hj2 as [|? ? ? ? _ Hj3]; subst; inversion Hj3; subst; reflexivity.
  - intros js. unfold divergence, over_axes, slope, wind_along. destruct js as [|i [|j js]]; cbn -[INR Nat.modulo]; unfold Rdiv; rewrite ?Rminus_diag_eq by reflexivity; ring.
  - intros k js Hk Hj. inversion Hj as [|? i ? ? _ Hj2]; subst; inversion Hj2 as [|? j ? ? Hb Hj3]; subst; inversion Hj3; subst.
    destruct k as [|[|k]]; [| |lia]; cbn -[INR]; [|rewrite Rabs_R0; lra].
    rewrite Rabs_pos_eq by apply pos_INR. replace 3 with (INR 3) by (cbn; ring). apply le_INR. lia.
  - unfold over_axes, step_of. cbn [seq map fold_right List.length nth]. replace (INR 8) with 8 by (cbn; ring).
    assert (S : 1.4 <= sqrt 2). { apply Rsqr_incr_0; try lra; [|apply sqrt_pos]. unfold Rsqr. rewrite sqrt_sqrt by lra. lra. }
    assert (X : 3 / (2 * PI / 8) <= 8). { apply (Rmult_le_reg_r (2 * PI / 8)); [lra|]. unfold Rdiv at 1. rewrite Rmult_assoc, Rinv_l by lra. lra. }
    replace (0 / (2 * PI / INR 4)) with 0 by (unfold Rdiv; ring). lra.
Qed.
(** sin (x + 2 y - 2 t) carried by the wind (1, 1/2): one step of a tenth on the 8 x 4 points *)
Example C111_converges_example : exists C g d traj r,
  forecast Req_EM_T Rminus (@rk4 RF (list nat))
    (generated_trend (fun l => l) (fun _ => 0) (fun l => l) (fun a _ => a) ["x"%string; "y"%string] g (fun _ _ _ => d) (plane_attr [fun _ => 1; fun _ => 1 / 2]) (advection Plane))
    [0; 1 / 10] (fun i => travelling 1 (1 / 2) 0 none (grid_point (g_dx g) (tl i))) SNone = Ok traj /\
  dget Req_EM_T (1 / 10) traj = Some r /\
  rms_error (g_dx g) [8%nat; 4%nat] (travelling 1 (1 / 2) (1 / 10) none) r <= C * ((1 / 10) ^ 4 + largest (g_dx g) ^ 2).
Proof.
  destruct (C111_converges [2 * PI; 2 * PI] [1; 1 / 2] 0 1 (travelling 1 (1 / 2)) (travelling_solution 1 (1 / 2) 1)) as (C & HC).
  destruct (plane_class (fun _ => 1) (fun _ => 1 / 2)) as (g & d & Hd & AC).
  destruct (HC Plane [8%nat; 4%nat] (fun l => l) (fun _ => 0) (fun l => l) (fun a _ => a) g (fun _ _ _ => d) (plane_attr [fun _ => 1; fun _ => 1 / 2]) (1 / 10) [0; 1 / 10]
    (fun i => travelling 1 (1 / 2) 0 none (grid_point (g_dx g) (tl i))) SNone AC) as (traj & E & H).
  - split; [reflexivity|]. split.
    + intros k t t' H H'. destruct k as [|[|k]]; cbn in H, H'; try discriminate; injection H as <-; injection H' as <-; lra.
    + intros t [<-|[<-|[]]]; lra.
  - intros js _. reflexivity.
  - lra.
  - unfold over_axes, step_of. cbn [seq map fold_right List.length nth]. replace (INR 8) with 8 by (cbn; ring). replace (INR 4) with 4 by (cbn; ring).
    pose proof PI2_1 as P1. assert (S : 1 <= sqrt 2) by (rewrite <- sqrt_1 at 1; apply sqrt_le_1_alt; lra).
    rewrite !Rabs_pos_eq by lra.
    assert (X : 1 / (2 * PI / 8) <= 4). { apply (Rmult_le_reg_r (2 * PI / 8)); [lra|]. unfold Rdiv at 1. rewrite Rmult_assoc, Rinv_l by lra. lra. }
    assert (Y : 1 / 2 / (2 * PI / 4) <= 4). { apply (Rmult_le_reg_r (2 * PI / 4)); [lra|]. unfold Rdiv at 1. rewrite Rmult_assoc, Rinv_l by lra. lra. }
    lra.
  - discriminate.
  - destruct (H (1 / 10) ltac:(right; left; reflexivity) ltac:(right; left; reflexivity)) as (r & G & Hr).
    exists C, g, d, traj, r. auto.
Qed.
(** the wind (1, 0) on the 8 x 4 points: rk4 by steps of 3 is beyond the limit, euler by steps of a tenth too *)
Example C111_unstable_example : let W := [fun _ : list nat => 1; fun _ => 0] in
  unsheared [8%nat; 4%nat] W /\ nth 0 [8%nat; 4%nat] O = (4 * 2)%nat /\ (forall js, wind_along W 0 js = 1) /\
  2 * sqrt 2 < Rabs (3 * 1 / step_of [2 * PI; 2 * PI] [8%nat; 4%nat] 0) /\ 1 / 10 * 1 <> 0.
Proof.
  cbv zeta. repeat split; try lra.
  - intros k js Hk _. destruct k as [|[|k]]; [reflexivity|reflexivity|cbn in Hk; lia].
  - unfold step_of. cbn [nth]. replace (INR 8) with 8 by (cbn; ring). pose proof PI_RGT_0 as P0. pose proof PI_4 as P4.
    assert (S : sqrt 2 < 1.45). { apply Rsqr_incrst_0; try lra; [|apply sqrt_pos]. unfold Rsqr. rewrite sqrt_sqrt by lra. lra. }
    assert (X : 3 <= 3 * 1 / (2 * PI / 8)). { apply (Rmult_le_reg_r (2 * PI / 8)); [lra|]. unfold Rdiv at 2. rewrite Rmult_assoc, Rinv_l by lra. lra. }
    rewrite Rabs_pos_eq by lra. lra.
Qed.
