(** C122: forecasts computed in double precision, against the exact ones. *)
From Coq Require Import List ZArith Bool Reals Lra Lia Arith String.
From Flocq Require Import Core.Core IEEE754.BinarySingleNaN.
From Verif Require Import PyBase Scalars FieldFacts FDReal SymModel FDExprModel GridModel GridSpec ForecastModel SchemesModel SchemesSpec
  LineModel LineSpec LineProofs LineCases
  FloatModel FloatSpec FloatProofs FloatCases FloatSchemeModel FloatSchemeSpec FloatSchemeProofs FloatRun FloatLine FloatSchemeCases.
Import ListNotations.
Open Scope R_scope.

(** an arithmetic expression of the generated code, whatever its shape *)
Theorem C122_expression e env64 env envb : (forall k, near (env64 k) (env k) (envb k)) -> ok (peval eb_ops envb e) ->
  near (peval ops64 env64 e) (rvalue env e) (peval eb_ops envb e).
Proof. rewrite <- peval_rvalue. exact (peval_near env64 env envb e). Qed.
Print Assumptions C122_expression.

(** a generated trend *)
Theorem C122_trend {I} (D : I -> Prop) (shifts : list (I -> I)) p64 p bp e f :
  (forall h, In h shifts -> forall i, D i -> D (h i)) -> (forall k, near (p64 k) (p k) (bp k)) ->
  (forall t s, exists k, f t s = Ok k /\ forall i, D i -> k i = rvalue (stencil_env shifts p s i) e) ->
  accurate D (stencil_trend shifts p64 e) f (eb_stencil shifts bp e).
Proof.
  intros H1 H2 H3. apply (stencil_near D shifts p64 p bp e f H1 H2). intros t s. destruct (H3 t s) as (k & E & X).
  exists k. split; [exact E|]. intros i Hi. rewrite peval_rvalue. exact (X i Hi).
Qed.
Print Assumptions C122_trend.

(** one step of euler, rk2, rk4 *)
Theorem C122_step {I} (D : I -> Prop) g f bt s : accurate D g f bt ->
  accurate_step D (fonestep s g) (@onestep_fun RF I s f) (eb_onestep s bt).
Proof. exact (onestep_near D g f bt s). Qed.
Print Assumptions C122_step.

(** one step of leapfrog *)
Theorem C122_leapfrog {I} (D : I -> Prop) g f bt : accurate D g f bt ->
  forall th t b s0h s0 b0 s1h s1 b1 dh d bd, near th t b -> anear D s0h s0 b0 -> anear D s1h s1 b1 -> near dh d bd ->
    ok (eb_leapfrog bt b b0 b1 bd) ->
    exists rh r, fleapfrog g th [s0h; s1h] dh = Ok [s1h; rh] /\ @leapfrog RF I f t [s0; s1] d = Ok [s1; r] /\
      anear D rh r (eb_leapfrog bt b b0 b1 bd).
Proof. exact (leapfrog_near D g f bt). Qed.
Print Assumptions C122_leapfrog.

(** a whole forecast: every saved state is finite and the error of a step is added at each step *)
Theorem C122_forecast {I} (D : I -> Prop) g f bt s T M H K e0 w u0h u0 l : accurate D g f bt ->
  ok (eb_onestep s bt (eb_exact T) (eb_exact M) (eb_step H)) ->
  expands D (@onestep_fun RF I s f) M K H -> fruns T H w -> (forall i, D i -> fin (u0h i)) ->
  close D e0 (fun i => v (u0h i)) u0 ->
  predict Req_EM_T Rminus (@onestep_fun RF I s) f (map (fun z : b64 => v z) w) u0 SNone = Ok l ->
  (forall k y, nth_error l k = Some y ->
     bounded D (M - accumulated K (err (eb_onestep s bt (eb_exact T) (eb_exact M) (eb_step H))) e0 k) y) ->
  exists lh, predict b64_dec bsub (fonestep s) g w u0h SNone = Ok lh /\ List.length lh = List.length l /\
    forall k yh y, nth_error lh k = Some yh -> nth_error l k = Some y -> forall i, D i ->
      fin (yh i) /\ Rabs (v (yh i) - y i) <= accumulated K (err (eb_onestep s bt (eb_exact T) (eb_exact M) (eb_step H))) e0 k.
Proof. exact (forecast_near D g f bt s T M H K e0 w u0h u0 l). Qed.
Print Assumptions C122_forecast.

(** the generated diffusion model: under the stability condition the errors of the steps only add up *)
Theorem C122_diffusion (L kappa : R) n enum x ord rpow g caches attr e p64 p bp tau s T M0 M rho e0 w u0h u0 : 0 < L ->
  line_class L kappa n enum ord g caches attr -> 0 <= kappa -> 2 * kappa * tau <= mesh L n ^ 2 ->
  (forall k, near (p64 k) (p k) (bp k)) ->
  (forall a b c, peval real_ops (names3 a b c p) e = kappa * ((b - 2 * a + c) / mesh L n ^ 2)) ->
  let b := eb_onestep s (eb_stencil (neighbours n) bp e) (eb_exact T) (eb_exact M) (eb_step tau) in
  ok b -> err b <= rho -> 0 <= rho -> M0 + e0 + INR (List.length w) * rho <= M ->
  fruns T tau w -> bounded (line n) M0 u0 -> (forall i, line n i -> fin (u0h i)) -> close (line n) e0 (fun i => v (u0h i)) u0 ->
  exists l lh,
    predict Req_EM_T Rminus (@onestep_fun RF (list nat) s) (generated_trend enum x ord rpow ["x"%string] g caches attr diffusion)
      (map (fun z : b64 => v z) w) u0 SNone = Ok l /\
    predict b64_dec bsub (fonestep s) (stencil_trend (neighbours n) p64 e) w u0h SNone = Ok lh /\
    List.length l = List.length w /\ List.length lh = List.length w /\
    forall k yh y, nth_error lh k = Some yh -> nth_error l k = Some y -> forall i, line n i ->
      fin (yh i) /\ Rabs (v (yh i) - y i) <= e0 + INR k * rho.
Proof.
  intros PL LC HK CFL NP EV. exact (diffusion_double L kappa n enum x ord rpow g caches attr PL LC HK e p64 p bp NP EV tau CFL s T M0 M rho e0 w u0h u0).
Qed.
Print Assumptions C122_diffusion.

(** what a double precision forecast of the diffusion says of the equation *)
Theorem C122_solution (L kappa t0 t1 : R) u s : 0 < L -> diffusion_solution L kappa t0 t1 u -> 0 <= kappa ->
  exists C, forall n enum ord g caches attr tau e p64 p bp T M0 M rho e0 w u0h u0,
    line_class L kappa n enum ord g caches attr -> 0 <= tau -> 2 * kappa * tau <= mesh L n ^ 2 ->
    (forall k, near (p64 k) (p k) (bp k)) ->
    (forall a b c, peval real_ops (names3 a b c p) e = kappa * ((b - 2 * a + c) / mesh L n ^ 2)) ->
    let b := eb_onestep s (eb_stencil (neighbours n) bp e) (eb_exact T) (eb_exact M) (eb_step tau) in
    ok b -> err b <= rho -> 0 <= rho -> M0 + e0 + INR (List.length w) * rho <= M ->
    fruns T tau w -> runs t0 t1 tau (map (fun z : b64 => v z) w) -> NoDup (map (fun z : b64 => v z) w) ->
    sampled L n (u O t0) u0 -> bounded (line n) M0 u0 -> (forall i, line n i -> fin (u0h i)) ->
    close (line n) e0 (fun i => v (u0h i)) u0 ->
    exists lh, predict b64_dec bsub (fonestep s) (stencil_trend (neighbours n) p64 e) w u0h SNone = Ok lh /\
      List.length lh = List.length w /\
      forall k t yh, nth_error w k = Some t -> nth_error lh k = Some yh -> forall j, (j < n)%nat ->
        fin (yh [O; j]) /\
        Rabs (v (yh [O; j]) - u O (v t) (INR j * mesh L n)) <= C * (tau ^ onestep_order s + mesh L n ^ 2) + (e0 + INR k * rho).
Proof. exact (diffusion_solved L kappa t0 t1 u s). Qed.
Print Assumptions C122_solution.

(** the sum over the points is kept by the exact steps of the diffusion, not by those in double precision *)
Theorem C122_sum_refuted :
  (forall f t d s r, (forall t s, exists k, f t s = Ok k /\ forall i, line 4 i -> k i = peval real_ops (stencil_env (neighbours 4) dp s i) dexp) ->
     @euler RF (list nat) f t s d = Ok r ->
     sum4 r = sum4 s) /\
  exists s y, feuler (stencil_trend (neighbours 4) dp64 dexp) zero s one = Ok y /\
    (forall i, line 4 i -> fin (s i) /\ fin (y i)) /\
    sum4 (fun i => v (y i)) <> sum4 (fun i => v (s i)).
Proof.
  split; [exact exact_sum|]. destruct spike_step as (y & E & F & S). exists spike, y. split; [exact E|]. split.
  - intros i Hi. split; [|auto]. destruct Hi as (j & Hj & ->). apply fin_sf. destruct j as [|[|[|[|j]]]]; [| | | |lia]; vm_compute; reflexivity.
  - rewrite S, spike_sum. pose proof v_tiny_pos. lra.
Qed.
Print Assumptions C122_sum_refuted.

(** a step of leapfrog is undone by the opposite step in exact arithmetic (C14), not in double precision *)
Theorem C122_leapfrog_refuted : exists (f : ftrend unit) t dt u0 u1 u2 u0',
  fleapfrog f t [u0; u1] dt = Ok [u1; u2] /\ fleapfrog f t [u2; u1] (Bopp dt) = Ok [u1; u0'] /\
  fin (u0 tt) /\ fin (u2 tt) /\ v (u0' tt) <> v (u0 tt).
Proof.
  destruct leapfrog_lost as (u2 & u0' & E1 & E2 & F & V2 & V0).
  do 3 eexists. exists (fun _ => tiny), (fun _ => one), u2, u0'. split; [exact E1|]. split; [exact E2|].
  split; [apply fin_sf; vm_compute; reflexivity|]. split; [exact F|]. rewrite V0. pose proof v_tiny_pos. lra.
Qed.
Print Assumptions C122_leapfrog_refuted.

(** ** cases *)
(** the expression of the diffusion on four points: at most 2, within 60 units of roundoff, for fields up to 2 *)
Example C122_expression_example t : (forall k, near (dp64 k) (dp k) (dbp k)) /\
  ok (eb_stencil (neighbours 4) dbp dexp t (eb_exact 2)) /\ err (eb_stencil (neighbours 4) dbp dexp t (eb_exact 2)) <= 60 * unit_roundoff.
Proof. destruct (dexp_good t) as (_ & G2 & G3). split; [exact dp_near|]. split; [exact G3|]. apply G2. Qed.
(** one step of leapfrog with it *)
Example C122_leapfrog_example : ok (eb_leapfrog (eb_stencil (neighbours 4) dbp dexp) (eb_exact 3) (eb_exact 2) (eb_exact 2) (eb_step (1 / 2))).
Proof.
  apply (good_add (eb_exact 2) _ 2 0 2 400); try lra; [apply (good_exact 2); lra|].
  eapply good_weaken; [apply (good_mul _ _ 2 60 1 10); try lra|lra|lra].
  - destruct (dexp_good (eb_exact 3)) as (G1 & G2 & G3). split; [exact G1|]. split; [exact G2|]. split; [exact I|]. split; [exact I|exact G3].
  - pose proof uro_small. pose proof underflow_small. pose proof limit_big.
    eapply good_weaken; [apply (good_mul (eb_int 2) (eb_step (1 / 2)) 2 0 (1 / 2) 2); try lra|lra|lra].
    + apply good_int; [cbn; lia|rewrite Rabs_pos_eq; lra].
    + split; [cbn; lra|]. split; [cbn [eb_step err]; unfold rounding; lra|]. cbn [eb_step ok]. lra.
Qed.
(** the wave sin(pi x/2) of period 4 forecast by the generated model on four points, at the times 0, 1, 2, 3 by euler:
    within 200 units of roundoff per step of the exact forecast, and near the solution of the equation *)
Example C122_diffusion_example : exists g d lh l, line_class 4 (/ 4) 4 (fun l => l) (fun l => l) g (fun _ _ _ => d) (fun _ => Ok (fun _ => / 4)) /\
  predict Req_EM_T Rminus (@euler RF (list nat))
    (generated_trend (fun l => l) (fun _ => 0) (fun l => l) (fun a _ => a) ["x"%string] g (fun _ _ _ => d) (fun _ => Ok (fun _ => / 4)) diffusion)
    [0; 1; 2; 3] (fun i => v (dstate i)) SNone = Ok l /\
  predict b64_dec bsub feuler (stencil_trend (neighbours 4) dp64 dexp) dwindow dstate SNone = Ok lh /\ List.length lh = 4%nat /\
  forall k yh y, nth_error lh k = Some yh -> nth_error l k = Some y -> forall i, line 4 i ->
    fin (yh i) /\ Rabs (v (yh i) - y i) <= 0 + INR k * (200 * unit_roundoff).
Proof.
  destruct (class_exists 4 (/ 4) 4 ltac:(lia)) as (g & d & _ & LC). pose proof uro_small.
  destruct dbound_good as (_ & G2 & G3).
  destruct (C122_diffusion 4 (/ 4) 4 (fun l => l) (fun _ => 0) (fun l => l) (fun a _ => a) g (fun _ _ _ => d) (fun _ => Ok (fun _ => / 4))
    dexp dp64 dp dbp 1 SEuler 3 1 2 (200 * unit_roundoff) 0 dwindow dstate (fun i => v (dstate i))) as (l & lh & E1 & E2 & L1 & L2 & Q);
    try lra; auto using dp_near, dexp_value, dwindow_runs.
  - unfold mesh. replace (INR 4) with 4 by (cbn; ring). lra.
  - apply G2.
  - cbn [List.length dwindow INR]. lra.
  - intros i (j & Hj & ->). apply (dstate_ok j Hj).
  - intros i (j & Hj & ->). apply (dstate_ok j Hj).
  - intros i Hi. replace (v (dstate i) - v (dstate i)) with 0 by ring. rewrite Rabs_R0. lra.
  - exists g, d, lh, l. split; [exact LC|]. rewrite dwindow_v in E1. auto.
Qed.
Example C122_solution_example : exists C lh, predict b64_dec bsub feuler (stencil_trend (neighbours 4) dp64 dexp) dwindow dstate SNone = Ok lh /\
  List.length lh = 4%nat /\
  forall k t yh, nth_error dwindow k = Some t -> nth_error lh k = Some yh -> forall j, (j < 4)%nat ->
    fin (yh [O; j]) /\ Rabs (v (yh [O; j]) - wave O (v t) (INR j * mesh 4 4)) <= C * (1 ^ 1 + mesh 4 4 ^ 2) + (0 + INR k * (200 * unit_roundoff)).
Proof.
  destruct (C122_solution 4 (/ 4) 0 3 wave SEuler ltac:(lra) (wave_solution 3) ltac:(lra)) as (C & HC).
  destruct (class_exists 4 (/ 4) 4 ltac:(lia)) as (g & d & _ & LC). pose proof uro_small.
  destruct dbound_good as (_ & G2 & G3). exists C.
  destruct (HC 4%nat (fun l => l) (fun l => l) g (fun _ _ _ => d) (fun _ => Ok (fun _ => / 4)) 1 dexp dp64 dp dbp 3 1 2 (200 * unit_roundoff) 0
    dwindow dstate (fun i => v (dstate i))) as (lh & E & LL & Q); try lra; auto using dp_near, dexp_value, dwindow_runs.
  - unfold mesh. replace (INR 4) with 4 by (cbn; ring). lra.
  - apply G2.
  - cbn [List.length dwindow INR]. lra.
  - rewrite dwindow_v. split; [reflexivity|]. split.
    + intros k t t' H1 H2. destruct k as [|[|[|[|k]]]]; cbn in H1, H2; try discriminate; try (destruct k; discriminate); injection H1 as <-; injection H2 as <-; lra.
    + intros t [<-|[<-|[<-|[<-|[]]]]]; lra.
  - rewrite dwindow_v. repeat constructor; cbn; intros X; repeat destruct X as [X|X]; try lra; auto.
  - intros j Hj. apply (dstate_ok j Hj).
  - intros i (j & Hj & ->). apply (dstate_ok j Hj).
  - intros i (j & Hj & ->). apply (dstate_ok j Hj).
  - intros i Hi. replace (v (dstate i) - v (dstate i)) with 0 by ring. rewrite Rabs_R0. lra.
  - exists lh. auto.
Qed.
