(** C115 and C116: the model generated from diffusion_in_2D.  The scheme; for constant tensors the sum, the sum of
    squares, convergence and instability of the forecasts; for variable tensors the budget of the sum, the bounds
    of the field and convergence. *)
From Coq Require Import List Arith ZArith Bool Reals String Lia Lra Psatz Permutation FunctionalExtensionality.
From Verif Require Import PyBase Scalars FieldFacts SymModel FDExprModel FDReal GridModel GridSpec ForecastModel ForecastSpec ConsistSpec ConsistMain
  SchemesModel SchemesSpec LineModel LineSpec EnergySpec RandomModel Reynolds RandomSpec AdvectSpec AdvectGrid AdvectConv WindSpec
  DiffuseModel DiffuseSpec DiffuseEq DiffuseTrend DiffuseGrid DiffuseMain DiffuseForecast DiffuseCases.
Import ListNotations.
Open Scope R_scope.

(** the expression built by coords.div(kappa_tensor*coords.gradient(u)) is the divergence of the flux, and the right
    hand side handed to the generator has the same value, in every differential algebra *)
Theorem C115_equation {A : RAlg} (I : interp A) : exists e, diffusion_source = Ok e /\
  value I e = cadd (dd "x" (cadd (cmul (value I kappa11) (dd "x" (value I heat))) (cmul (value I kappa12) (dd "y" (value I heat)))))
                   (dd "y" (cadd (cmul (value I kappa12) (dd "x" (value I heat))) (cmul (value I kappa22) (dd "y" (value I heat))))) /\
  value I e = value I (SAdd diffusion_terms).
Proof. exact (diffusion_expanded I). Qed.
Print Assumptions C115_equation.

(** the trend of the generated model, for any arrays of the components: centred differences of first and second order,
    the mixed derivative by the first differences one after the other, the derivatives of the components by centred
    differences too *)
Theorem C115_scheme lengths shape K enum x ord rpow g caches attr : diffuse_class lengths shape K enum ord g caches attr ->
  forall (t : R) state, exists r, generated_trend enum x ord rpow plane g caches attr diffusion_in_2D t state = Ok r /\
    forall js, in_range shape js -> field r js = diffused lengths shape K (field state) js.
Proof. intros DC t state. exact (diffusion_trend lengths shape K enum x ord rpow g caches attr DC t state). Qed.
Print Assumptions C115_scheme.

(** constant tensors: the forecasts conserve the sum of the field *)
Theorem C115_mass lengths shape K enum x ord rpow g caches attr : diffuse_class lengths shape (uniform K) enum ord g caches attr ->
  forall s w state sv, w <> [] -> sv <> SOther ->
  exists traj, forecast Req_EM_T Rminus (@onestep_fun RF (list nat) s) (generated_trend enum x ord rpow plane g caches attr diffusion_in_2D) w state sv = Ok traj /\
    forall t, In t w -> is_saved w sv t -> exists r, dget Req_EM_T t traj = Some r /\ mass shape r = mass shape state.
Proof.
  intros DC s w state sv Hw Hs.
  exact (model_conserves lengths shape (uniform K) enum x ord rpow g caches attr DC s w state sv Hw Hs (fun js _ => uniform_excess lengths shape K js)).
Qed.
Print Assumptions C115_mass.

(** constant tensors that are positive semi-definite: the sum of squares does not increase when
    tau * 4 (k11 / h1^2 + k22 / h2^2) is at most 2 for euler and rk2, 2.78 for rk4 *)
Theorem C115_energy lengths shape K enum x ord rpow g caches attr : diffuse_class lengths shape (uniform K) enum ord g caches attr -> dissipates K ->
  forall s tau w state sv, w <> [] -> sv <> SOther -> by_steps tau w -> tau * stiffness_of lengths shape K <= step_limit s ->
  exists traj, forecast Req_EM_T Rminus (@onestep_fun RF (list nat) s) (generated_trend enum x ord rpow plane g caches attr diffusion_in_2D) w state sv = Ok traj /\
    forall t, In t w -> is_saved w sv t -> exists r, dget Req_EM_T t traj = Some r /\ energy shape r <= energy shape state.
Proof.
  intros DC HK s tau w state sv. exact (uniform_energy lengths shape K enum x ord rpow g caches attr DC HK s tau w state sv).
Qed.
Print Assumptions C115_energy.

(** under the same limit the forecasts from the values of a smooth periodic solution converge to it in root mean
    square, at the order of the scheme in the step and 2 in the spacing; C depends on the tensor and the solution
    only *)
Theorem C115_converges lengths K t0 t1 u s : List.length lengths = 2%nat -> dissipates K -> evolution 2 lengths (diffusion_with K) t0 t1 u ->
  exists C, forall shape enum x ord rpow (g : @grid RF) caches attr tau win state sv,
    diffuse_class lengths shape (uniform K) enum ord g caches attr ->
    runs t0 t1 tau win -> (forall js, in_range shape js -> field state js = u O t0 none (grid_point (g_dx g) js)) ->
    0 <= tau -> tau * stiffness_of lengths shape K <= step_limit s -> sv <> SOther ->
    exists traj, forecast Req_EM_T Rminus (@onestep_fun RF (list nat) s) (generated_trend enum x ord rpow plane g caches attr diffusion_in_2D) win state sv = Ok traj /\
      forall t, In t win -> is_saved win sv t -> exists r, dget Req_EM_T t traj = Some r /\
        rms_error (g_dx g) shape (u O t none) r <= C * (tau ^ onestep_order s + largest (g_dx g) ^ 2).
Proof. exact (uniform_forecast lengths K t0 t1 u s). Qed.
Print Assumptions C115_converges.

(** beyond the limit (2 for euler and rk2, 2.79 for rk4), on grids of even numbers of points: two fields that differ by
    any multiple of the field of alternating signs have forecasts whose distance is unbounded *)
Theorem C115_unstable lengths shape K enum x ord rpow g caches attr : diffuse_class lengths shape (uniform K) enum ord g caches attr ->
  (exists p q, shape = [(2 * p)%nat; (2 * q)%nat]) ->
  forall s t0 dt eps a b, eps <> 0 -> (forall js, in_range shape js -> field a js = field b js + eps * alternating js) ->
  match s with SRk4 => 279 / 100 < dt * stiffness_of lengths shape K | _ => 2 < dt * stiffness_of lengths shape K end ->
  forall B, exists N0, forall N, (N0 <= N)%nat -> exists ta tb ra rb,
    forecast Req_EM_T Rminus (@onestep_fun RF (list nat) s) (generated_trend enum x ord rpow plane g caches attr diffusion_in_2D) (times t0 dt N) a SNone = Ok ta /\
    forecast Req_EM_T Rminus (@onestep_fun RF (list nat) s) (generated_trend enum x ord rpow plane g caches attr diffusion_in_2D) (times t0 dt N) b SNone = Ok tb /\
    dget Req_EM_T (t0 + INR N * dt) ta = Some ra /\ dget Req_EM_T (t0 + INR N * dt) tb = Some rb /\ B <= gap shape ra rb.
Proof.
  intros DC Ev s t0 dt eps a b He Hab Hs. exact (uniform_unstable lengths shape K enum x ord rpow g caches attr DC s t0 dt eps a b Ev He Hab Hs).
Qed.
Print Assumptions C115_unstable.

(** variable tensors: the rate of the sum of the field is the sum of the field weighted by the excess of the tensor,
    so that the sum is conserved when there is none *)
Theorem C116_budget lengths shape K enum x ord rpow g caches attr : diffuse_class lengths shape K enum ord g caches attr ->
  (forall (t : R) state r, generated_trend enum x ord rpow plane g caches attr diffusion_in_2D t state = Ok r ->
     mass shape r = mass shape (fun i => excess lengths shape K (tl i) * state i)) /\
  forall s w state sv, w <> [] -> sv <> SOther -> (forall js, in_range shape js -> excess lengths shape K js = 0) ->
  exists traj, forecast Req_EM_T Rminus (@onestep_fun RF (list nat) s) (generated_trend enum x ord rpow plane g caches attr diffusion_in_2D) w state sv = Ok traj /\
    forall t, In t w -> is_saved w sv t -> exists r, dget Req_EM_T t traj = Some r /\ mass shape r = mass shape state.
Proof.
  intros DC. split.
  - intros t state r E. exact (model_budget lengths shape K enum x ord rpow g caches attr DC t state r E).
  - intros s w state sv. exact (model_conserves lengths shape K enum x ord rpow g caches attr DC s w state sv).
Qed.
Print Assumptions C116_budget.

(** diagonal tensors whose components vary at most by four times their value between the two neighbours of a point:
    when tau (2 k11 / h1^2 + 2 k22 / h2^2) <= 1 at all points the forecasts keep the bounds of the field *)
Theorem C116_bounds lengths shape K enum x ord rpow g caches attr : diffuse_class lengths shape K enum ord g caches attr -> resolved shape K ->
  forall s tau w state sv lo hi, w <> [] -> sv <> SOther -> by_steps tau w ->
  (forall js, in_range shape js -> tau * (2 * k11 K js / step_of lengths shape 0 ^ 2 + 2 * k22 K js / step_of lengths shape 1 ^ 2) <= 1) ->
  (forall js, in_range shape js -> lo <= field state js <= hi) ->
  exists traj, forecast Req_EM_T Rminus (@onestep_fun RF (list nat) s) (generated_trend enum x ord rpow plane g caches attr diffusion_in_2D) w state sv = Ok traj /\
    forall t, In t w -> is_saved w sv t -> exists r, dget Req_EM_T t traj = Some r /\ forall js, in_range shape js -> lo <= field r js <= hi.
Proof.
  intros DC RK s tau w state sv lo hi Hw Hs B. exact (diagonal_forecast lengths shape K enum x ord rpow g caches attr DC s tau w state sv lo hi Hw Hs B RK).
Qed.
Print Assumptions C116_bounds.

(** under the same conditions, for a smooth periodic tensor taken at the points of the grid: the forecasts from the
    values of a smooth periodic solution converge to it uniformly, at the order of the scheme in the step and 2 in
    the spacing *)
Theorem C116_converges lengths K t0 t1 u s : List.length lengths = 2%nat -> smooth_tensor lengths K -> evolution 2 lengths (diffusion_of K) t0 t1 u ->
  exists C, forall shape enum x ord rpow (g : @grid RF) caches attr tau win state sv,
    diffuse_class lengths shape (tensor_arrays (g_dx g) K) enum ord g caches attr ->
    runs t0 t1 tau win -> (forall js, in_range shape js -> field state js = u O t0 none (grid_point (g_dx g) js)) ->
    0 <= tau -> resolved shape (tensor_arrays (g_dx g) K) ->
    (forall js, in_range shape js -> let p := grid_point (g_dx g) js in
      tau * (2 * k11 K none p / step_of lengths shape 0 ^ 2 + 2 * k22 K none p / step_of lengths shape 1 ^ 2) <= 1) -> sv <> SOther ->
    exists traj, forecast Req_EM_T Rminus (@onestep_fun RF (list nat) s) (generated_trend enum x ord rpow plane g caches attr diffusion_in_2D) win state sv = Ok traj /\
      forall t, In t win -> is_saved win sv t -> exists r, dget Req_EM_T t traj = Some r /\
        forall js, in_range shape js -> Rabs (field r js - u O t none (grid_point (g_dx g) js)) <= C * (tau ^ onestep_order s + largest (g_dx g) ^ 2).
Proof. exact (diagonal_converges lengths K t0 t1 u s). Qed.
Print Assumptions C116_converges.

(** the divergence of a flux conserves the integral; the generated model does not conserve the sum, even under the
    conditions of C116_bounds *)
Theorem C116_conservation_refuted : exists lengths shape K g caches attr traj r state,
  diffuse_class lengths shape K (fun l => l) (fun l => l) g caches attr /\ resolved shape K /\
  (forall js, in_range shape js -> 1 / 10 * (2 * k11 K js / step_of lengths shape 0 ^ 2 + 2 * k22 K js / step_of lengths shape 1 ^ 2) <= 1) /\
  forecast Req_EM_T Rminus (@euler RF (list nat)) (generated_trend (fun l => l) (fun _ => 0) (fun l => l) (fun a _ => a) plane g caches attr diffusion_in_2D) [0; 1 / 10] state SNone = Ok traj /\
  dget Req_EM_T (1 / 10) traj = Some r /\ mass shape r <> mass shape state.
Proof.
  destruct uneven_loses as (g & d & traj & r & _ & DC & E & G & M0 & M1).
  exists [4; 1], [4%nat; 1%nat], uneven, g, (fun _ _ _ => d), (kappa_attr uneven), traj, r, spike.
  repeat split; auto; try apply DC; try apply uneven_resolved; auto using uneven_limit. rewrite M0, M1. lra.
Qed.
Print Assumptions C116_conservation_refuted.

(** a diffusion does not create new extrema; with a positive definite tensor that is not diagonal the generated model
    does, for every step *)
Theorem C116_positivity_refuted : exists lengths shape K state, dissipates K /\ k12 K ^ 2 < k11 K * k22 K /\
  (forall js, in_range shape js -> 0 <= field state js <= 1) /\
  forall dt, 0 < dt -> exists g caches attr traj r js,
  diffuse_class lengths shape (uniform K) (fun l => l) (fun l => l) g caches attr /\
  forecast Req_EM_T Rminus (@euler RF (list nat)) (generated_trend (fun l => l) (fun _ => 0) (fun l => l) (fun a _ => a) plane g caches attr diffusion_in_2D) [0; dt] state SNone = Ok traj /\
  dget Req_EM_T dt traj = Some r /\ in_range shape js /\ field r js < 0.
Proof.
  exists [3; 3], [3%nat; 3%nat], slanted, dot_field. split; [exact slanted_dissipates|]. split; [cbn; lra|]. split.
  { intros js _. unfold field, dot_field. destruct (_ && _)%bool; lra. }
  intros dt Hdt. destruct (slanted_undershoot dt Hdt) as (g & d & traj & r & _ & DC & E & G & Hr).
  exists g, (fun _ _ _ => d), (kappa_attr (uniform slanted)), traj, r, [1%nat; 2%nat].
  split; [exact DC|]. split; [exact E|]. split; [exact G|]. split; [repeat (constructor; try lia)|rewrite Hr; lra].
Qed.
Print Assumptions C116_positivity_refuted.

(** the tensor (1, 1/2, 1) on 8 x 4 points of the square of side 2 pi: a class, a solution of rate 3, steps of a tenth
    within the limits, steps of 1 beyond them *)
Example C115_example : dissipates slanted /\ evolution 2 [2 * PI; 2 * PI] (diffusion_with slanted) 0 1 damped /\
  (exists g d, init_index plane [8%nat; 4%nat] = Ok d /\
     diffuse_class [2 * PI; 2 * PI] [8%nat; 4%nat] (uniform slanted) (fun l => l) (fun l => l) g (fun _ _ _ => d) (kappa_attr (uniform slanted))) /\
  (forall s, 1 / 10 * stiffness_of [2 * PI; 2 * PI] [8%nat; 4%nat] slanted <= step_limit s) /\
  (forall s, match s with SRk4 => 279 / 100 < 1 * stiffness_of [2 * PI; 2 * PI] [8%nat; 4%nat] slanted | _ => 2 < 1 * stiffness_of [2 * PI; 2 * PI] [8%nat; 4%nat] slanted end) /\
  exists p q, [8%nat; 4%nat] = [(2 * p)%nat; (2 * q)%nat].
Proof.
  pose proof PI2_1 as P1. pose proof PI_4 as P4.
  assert (ST : stiffness_of [2 * PI; 2 * PI] [8%nat; 4%nat] slanted = 80 / PI ^ 2).
  { unfold stiffness_of, slanted, step_of. cbn [k11 k22 nth]. replace (INR 8) with 8 by (cbn; ring). replace (INR 4) with 4 by (cbn; ring). field. lra. }
  assert (Q : 4 <= PI ^ 2 <= 16) by (replace (PI ^ 2) with (PI * PI) by ring; nra).
  assert (U : 80 / PI ^ 2 <= 20) by (apply (Rmult_le_reg_r (PI ^ 2)); [lra|]; unfold Rdiv; rewrite Rmult_assoc, Rinv_l by lra; lra).
  assert (L : 5 <= 80 / PI ^ 2) by (apply (Rmult_le_reg_r (PI ^ 2)); [lra|]; unfold Rdiv; rewrite Rmult_assoc, Rinv_l by lra; lra).
  split; [exact slanted_dissipates|]. split; [exact damped_solution|]. split; [apply some_class; [lra|lra|lia|lia]|].
  rewrite ST. split; [intros []; cbn [step_limit]; lra|]. split; [intros []; lra|]. exists 4%nat, 2%nat. reflexivity.
Qed.
Example C115_converges_example : exists C g d traj r,
  forecast Req_EM_T Rminus (@rk2 RF (list nat))
    (generated_trend (fun l => l) (fun _ => 0) (fun l => l) (fun a _ => a) plane g (fun _ _ _ => d) (kappa_attr (uniform slanted)) diffusion_in_2D)
    [0; 1 / 10] (fun i => damped O 0 none (grid_point (g_dx g) (tl i))) SNone = Ok traj /\
  dget Req_EM_T (1 / 10) traj = Some r /\
  rms_error (g_dx g) [8%nat; 4%nat] (damped O (1 / 10) none) r <= C * ((1 / 10) ^ 2 + largest (g_dx g) ^ 2).
Proof.
  destruct C115_example as (HK & EV & (g & d & _ & DC) & L & _).
  destruct (C115_converges [2 * PI; 2 * PI] slanted 0 1 damped SRk2 eq_refl HK EV) as (C & HC).
  destruct (HC [8%nat; 4%nat] (fun l => l) (fun _ => 0) (fun l => l) (fun a _ => a) g (fun _ _ _ => d) (kappa_attr (uniform slanted)) (1 / 10) [0; 1 / 10]
    (fun i => damped O 0 none (grid_point (g_dx g) (tl i))) SNone DC) as (traj & E & H).
  - split; [reflexivity|]. split.
    + intros k t t' H H'. destruct k as [|[|k]]; cbn in H, H'; try discriminate; injection H as <-; injection H' as <-; lra.
    + intros t [<-|[<-|[]]]; lra.
  - intros js _. reflexivity.
  - lra.
  - exact (L SRk2).
  - discriminate.
  - destruct (H (1 / 10) ltac:(right; left; reflexivity) ltac:(right; left; reflexivity)) as (r & G & Hr).
    exists C, g, d, traj, r. auto.
Qed.
(** the tensor ((1 + cos x / 8) / (1 + cos x / 2), 0, 1) and the solution exp (- 2 t) (cos x + cos (2 x) / 8) sin y: one
    step of a sixteenth on 8 x 4 points *)
Example C116_converges_example : exists K C (g : @grid RF) d traj r,
  (forall p, k11 K none p = bump p /\ k12 K none p = 0 /\ k22 K none p = 1) /\
  resolved [8%nat; 4%nat] (tensor_arrays (g_dx g) K) /\
  forecast Req_EM_T Rminus (@rk4 RF (list nat))
    (generated_trend (fun l => l) (fun _ => 0) (fun l => l) (fun a _ => a) plane g (fun _ _ _ => d) (kappa_attr (tensor_arrays (g_dx g) K)) diffusion_in_2D)
    [0; 1 / 16] (fun i => ripple O 0 none (grid_point (g_dx g) (tl i))) SNone = Ok traj /\
  dget Req_EM_T (1 / 16) traj = Some r /\
  forall js, in_range [8%nat; 4%nat] js -> Rabs (field r js - ripple O (1 / 16) none (grid_point (g_dx g) js)) <= C * ((1 / 16) ^ 4 + largest (g_dx g) ^ 2).
Proof.
  pose proof PI2_1 as P1. destruct hill as (K & SK & VK & EV). exists K.
  destruct (C116_converges [2 * PI; 2 * PI] K 0 1 ripple SRk4 eq_refl SK EV) as (C & HC).
  set (dx := spacings [2 * PI; 2 * PI] [8%nat; 4%nat]).
  destruct (some_class (2 * PI) (2 * PI) 8 4 (tensor_arrays dx K) ltac:(lra) ltac:(lra) ltac:(lia) ltac:(lia)) as (g & d & _ & DC).
  pose proof (d_dx _ _ _ _ _ _ _ _ DC) as Edx. fold dx in Edx. rewrite <- Edx in DC.
  assert (Bk : forall p, 3 / 4 <= bump p <= 7 / 4).
  { intros p. unfold bump. pose proof (COS_bound (p O)) as Cb. set (q := 1 + cos (p O) / 2). assert (Q : 1 / 2 <= q <= 3 / 2) by (unfold q; lra).
    assert (I : q * / q = 1) by (apply Rinv_r; lra). assert (0 < / q) by (apply Rinv_0_lt_compat; lra). split; nra. }
  assert (RK : resolved [8%nat; 4%nat] (tensor_arrays (g_dx g) K)).
  { intros js _. unfold tensor_arrays, kmap, sample. cbn [k11 k12 k22]. rewrite !(proj1 (VK _)), (proj1 (proj2 (VK _))), !(proj2 (proj2 (VK _))).
    split; [reflexivity|]. split; [|rewrite Rminus_diag_eq, Rabs_R0 by reflexivity; lra].
    pose proof (Bk (grid_point (g_dx g) js)). pose proof (Bk (grid_point (g_dx g) (next [8%nat; 4%nat] 0 js))). pose proof (Bk (grid_point (g_dx g) (prev [8%nat; 4%nat] 0 js))). apply Rabs_le. lra. }
  destruct (HC [8%nat; 4%nat] (fun l => l) (fun _ => 0) (fun l => l) (fun a _ => a) g (fun _ _ _ => d) (kappa_attr (tensor_arrays (g_dx g) K)) (1 / 16) [0; 1 / 16]
    (fun i => ripple O 0 none (grid_point (g_dx g) (tl i))) SNone DC) as (traj & E & H).
  - split; [reflexivity|]. split.
    + intros k t t' H H'. destruct k as [|[|k]]; cbn in H, H'; try discriminate; injection H as <-; injection H' as <-; lra.
    + intros t [<-|[<-|[]]]; lra.
  - intros js _. reflexivity.
  - lra.
  - exact RK.
  - intros js _ p. rewrite (proj1 (VK p)), (proj2 (proj2 (VK p))). pose proof (Bk p) as Hb.
    unfold step_of. cbn [nth]. replace (INR 8) with 8 by (cbn; ring). replace (INR 4) with 4 by (cbn; ring).
    replace (2 * bump p / (2 * PI / 8) ^ 2 + 2 * 1 / (2 * PI / 4) ^ 2) with ((32 * bump p + 8) / PI ^ 2) by (field; lra).
    assert (Q : 4 <= PI ^ 2) by (replace (PI ^ 2) with (PI * PI) by ring; nra).
    assert (U : (32 * bump p + 8) / PI ^ 2 <= 16) by (apply (Rmult_le_reg_r (PI ^ 2)); [lra|]; unfold Rdiv; rewrite Rmult_assoc, Rinv_l by lra; nra). lra.
  - discriminate.
  - destruct (H (1 / 16) ltac:(right; left; reflexivity) ltac:(right; left; reflexivity)) as (r & G & Hr).
    exists C, g, d, traj, r. auto.
Qed.
(** arrays that meet the conditions of C116_bounds; components of which each does not vary along its own axis, with any
    mixed component, have no excess *)
Example C116_bounds_example : resolved [4%nat; 1%nat] uneven /\
  (forall js, in_range [4%nat; 1%nat] js -> 1 / 10 * (2 * k11 uneven js / step_of [4; 1] [4%nat; 1%nat] 0 ^ 2 + 2 * k22 uneven js / step_of [4; 1] [4%nat; 1%nat] 1 ^ 2) <= 1) /\
  forall js, in_range [4%nat; 1%nat] js -> 0 <= field spike js <= 1.
Proof.
  split; [exact uneven_resolved|]. split; [exact uneven_limit|]. intros js _. unfold field, spike. destruct (Nat.eqb _ _); lra.
Qed.
Example C116_budget_example (k : list nat -> R) js : excess [2 * PI; 2 * PI] [8%nat; 4%nat] (tensor2 (fun js => INR (nth 1 js O)) k (fun js => INR (nth 0 js O))) [nth 0 js O; nth 1 js O] = 0.
Proof. unfold excess, curve, slope, next, prev. cbn [k11 k22 nth replace]. unfold Rdiv. ring. Qed.
