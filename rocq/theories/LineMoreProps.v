(** C117 to C119: forecasts with the generated models of the 1D advection, of Burgers' equation and of the
    Kuramoto-Sivashinsky equation. *)
From Coq Require Import List Arith ZArith Bool Reals String Lia Lra Permutation.
From Verif Require Import PyBase Scalars FieldFacts FDReal GridModel ForecastModel ForecastSpec SchemesModel SchemesSpec
  LineModel LineSpec LineProofs LineConv LineCases LineMoreModel LineMoreSpec LineMoreProofs LineMoreForecast LineRms LineMoreCases.
Import ListNotations.
Open Scope R_scope.

(** ** C117: the 1D advection *)
(** the generated trend is the self-advection of the wind; the field does not occur in it *)
Theorem C117_scheme (L : R) (wind : list nat -> R) n enum x ord rpow g caches attr t state : 0 < L ->
  wind_class L wind n enum ord g caches attr ->
  exists r, generated_trend enum x ord rpow ["x"%string] g caches attr line_advection t state = Ok r /\
    forall j, (j < n)%nat -> r [O; j] = - wind [j] * ((wind [(j + 1) mod n]%nat - wind [(j + n - 1) mod n]%nat) / (2 * (L / INR n))).
Proof.
  intros PL WC. destruct (wind_trend L wind n enum x ord rpow g caches attr WC PL t state) as (r & E & H).
  exists r. split; [exact E|]. intros j Hj. rewrite <- shift_next, <- shift_prev by auto. apply H; auto.
Qed.
Print Assumptions C117_scheme.

(** hence with every scheme the forecast is the initial field plus this rate times the elapsed time *)
Theorem C117_forecast (L : R) (wind : list nat -> R) n enum x ord rpow g caches attr (t0 : R) w (state : list nat -> R) sv scheme : 0 < L ->
  wind_class L wind n enum ord g caches attr -> nth_error w 0 = Some t0 -> sv <> SOther ->
  exists traj, forecast Req_EM_T Rminus (@onestep_fun RF (list nat) scheme) (generated_trend enum x ord rpow ["x"%string] g caches attr line_advection) w state sv = Ok traj /\
    forall t, In t w -> is_saved w sv t -> exists v, dget Req_EM_T t traj = Some v /\
      forall j, (j < n)%nat -> v [O; j] = state [O; j] +
        (t - t0) * (- wind [j] * ((wind [(j + 1) mod n]%nat - wind [(j + n - 1) mod n]%nat) / (2 * (L / INR n)))).
Proof.
  intros PL WC W0 Hs. destruct (wind_forecast L wind n enum x ord rpow g caches attr t0 w state sv scheme PL WC W0 Hs) as (traj & E & H).
  exists traj. split; [exact E|]. intros t Ht Hv. destruct (H t Ht Hv) as (v & G & Hj). exists v. split; [exact G|].
  intros j Hlt. rewrite <- shift_next, <- shift_prev by auto. apply Hj; auto.
Qed.
Print Assumptions C117_forecast.

(** the forecasts do not approach the field carried by the wind: a wave on the period 2 pi in a wind of 1 is wrong by 2 at
    the time pi, with every scheme, on every grid, by all steps *)
Theorem C117_advection_refuted : exists (L : R) (c : R -> R) (u ux ut : R -> R -> R), 0 < L /\ carried_by L c u ux ut /\
  forall n enum x ord rpow g caches attr (wind state : list nat -> R) w sv scheme, (0 < n)%nat ->
    wind_class L wind n enum ord g caches attr -> (forall i, wind i = c (INR (nth 0 i O) * mesh L n)) ->
    nth_error w 0 = Some 0 -> In PI w -> is_saved w sv PI -> sv <> SOther -> sampled L n (u 0) state ->
    exists traj v, forecast Req_EM_T Rminus (@onestep_fun RF (list nat) scheme) (generated_trend enum x ord rpow ["x"%string] g caches attr line_advection) w state sv = Ok traj /\
      dget Req_EM_T PI traj = Some v /\ v [O; O] - u PI 0 = 2.
Proof.
  exists (2 * PI), (fun _ => 1), wave, (fun t x => - sin (x - t)), (fun t x => sin (x - t)).
  split; [pose proof PI_RGT_0; lra|]. split; [exact wave_carried|].
  intros n enum x ord rpow g caches attr wind state w sv scheme Hn WC Hw W0 Hi Hv Hs Hsv.
  assert (WC' : wind_class (2 * PI) (fun _ => 1) n enum ord g caches attr).
  { destruct WC as [A B C D E]. split; auto. rewrite E. f_equal. apply FunctionalExtensionality.functional_extensionality. exact Hw. }
  apply (wave_stays n enum x ord rpow g caches attr w state sv scheme); auto.
Qed.
Print Assumptions C117_advection_refuted.

Example C117_class_example : exists g d, init_index ["x"%string] [8%nat] = Ok d /\
  wind_class (2 * PI) (fun i => INR (nth 0 i O)) 8 (fun l => l) (fun l => l) g (fun _ _ _ => d) (fun _ => Ok (fun i => INR (nth 0 i O))).
Proof. exact (wind_class_exists (2 * PI) _ 8 ltac:(lia)). Qed.
(** the winds 0, 1, 2, 3 on 4 points of the period 4: whatever the field, its rate at the point 1 is -1 *)
Example C117_scheme_example (state : list nat -> R) : exists g d r,
  generated_trend (fun l => l) (fun _ => 0) (fun l => l) (fun a _ => a) ["x"%string] g (fun _ _ _ => d) (fun _ => Ok (fun i => INR (nth 0 i O))) line_advection 0 state = Ok r /\
  r [O; 1%nat] = -1.
Proof.
  destruct (wind_class_exists 4 (fun i => INR (nth 0 i O)) 4 ltac:(lia)) as (g & d & _ & WC).
  destruct (C117_scheme 4 _ 4 _ (fun _ => 0) _ (fun a _ => a) g _ _ 0 state ltac:(lra) WC) as (r & E & H).
  exists g, d, r. split; [exact E|]. rewrite (H 1%nat) by lia. cbn. field.
Qed.

(** ** C118: the Kuramoto-Sivashinsky equation, and conservation *)
Theorem C118_kuramoto_scheme (L kappa eta : R) n enum x ord rpow g caches attr t state : 0 < L ->
  kuramoto_class L kappa eta n enum ord g caches attr ->
  exists r, generated_trend enum x ord rpow ["x"%string] g caches attr kuramoto t state = Ok r /\
    forall j, (j < n)%nat -> let h := L / INR n in let v k := state [O; (j + k) mod n]%nat in let b k := state [O; Z.to_nat ((Z.of_nat j - Z.of_nat k) mod Z.of_nat n)] in
      r [O; j] = - v O * ((v 1%nat - b 1%nat) / (2 * h)) - kappa * ((v 1%nat - 2 * v O + b 1%nat) / h ^ 2)
        - eta * ((v 2%nat - 4 * v 1%nat + 6 * v O - 4 * b 1%nat + b 2%nat) / h ^ 4).
Proof.
  intros PL KC. destruct (kuramoto_trend L kappa eta n enum x ord rpow g caches attr KC PL t state) as (r & E & H).
  exists r. split; [exact E|]. intros j Hj. cbv beta zeta. rewrite <- !shift_next by auto. rewrite Nat.add_0_r, (Nat.mod_small j n) by auto.
  assert (E2 : ((j + 2) mod n)%nat = shift n 2 j).
  { unfold shift. rewrite <- (Nat2Z.id ((j + 2) mod n)). rewrite Nat2Z.inj_mod, Nat2Z.inj_add. reflexivity. }
  rewrite E2. exact (H j Hj).
Qed.
Print Assumptions C118_kuramoto_scheme.

(** the forecasts of both equations conserve the sum of the field, with every scheme, by all steps *)
Theorem C118_burgers_sum (L kappa : R) n enum x ord rpow g caches attr w state sv scheme : 0 < L ->
  line_class L kappa n enum ord g caches attr -> w <> [] -> sv <> SOther ->
  exists traj, forecast Req_EM_T Rminus (@onestep_fun RF (list nat) scheme) (generated_trend enum x ord rpow ["x"%string] g caches attr burgers) w state sv = Ok traj /\
    forall t, In t w -> is_saved w sv t -> exists v, dget Req_EM_T t traj = Some v /\ field_sum n v = field_sum n state.
Proof. intros PL LC. apply zero_sum_forecast. exact (burgers_zero_sum L kappa n enum x ord rpow g caches attr PL LC). Qed.
Print Assumptions C118_burgers_sum.
Theorem C118_kuramoto_sum (L kappa eta : R) n enum x ord rpow g caches attr w state sv scheme : 0 < L ->
  kuramoto_class L kappa eta n enum ord g caches attr -> w <> [] -> sv <> SOther ->
  exists traj, forecast Req_EM_T Rminus (@onestep_fun RF (list nat) scheme) (generated_trend enum x ord rpow ["x"%string] g caches attr kuramoto) w state sv = Ok traj /\
    forall t, In t w -> is_saved w sv t -> exists v, dget Req_EM_T t traj = Some v /\ field_sum n v = field_sum n state.
Proof. intros PL KC. apply zero_sum_forecast. exact (kuramoto_zero_sum L kappa eta n enum x ord rpow g caches attr PL KC). Qed.
Print Assumptions C118_kuramoto_sum.

(** the values 0, 1, 2, 3, 4 on 5 points of the period 5, kappa = 1, eta = 2: the rate at the point 0 *)
Example C118_scheme_example : exists g d r,
  generated_trend (fun l => l) (fun _ => 0) (fun l => l) (fun a _ => a) ["x"%string] g (fun _ _ _ => d) (fun a => Ok (fun _ => if String.eqb a "eta" then 2 else 1)) kuramoto
    0 (fun i => INR (nth 1 i O)) = Ok r /\ r [O; O] = 25.
Proof.
  destruct (kuramoto_class_exists 5 1 2 5 ltac:(lia)) as (g & d & _ & KC).
  destruct (C118_kuramoto_scheme 5 1 2 5 _ (fun _ => 0) _ (fun a _ => a) g _ _ 0 (fun i => INR (nth 1 i O)) ltac:(lra) KC) as (r & E & H).
  exists g, d, r. split; [exact E|]. rewrite (H O) by lia.
  change (- 0 * ((INR 1 - INR 4) / (2 * (5 / INR 5))) - 1 * ((INR 1 - 2 * 0 + INR 4) / (5 / INR 5) ^ 2)
    - 2 * ((INR 2 - 4 * INR 1 + 6 * 0 - 4 * INR 4 + INR 3) / (5 / INR 5) ^ 4) = 25). cbn [INR]. field.
Qed.
(** one rk4 step of 1/10 from these values: the sum stays 10 *)
Example C118_sum_example : exists g d traj v,
  forecast Req_EM_T Rminus (@rk4 RF (list nat)) (generated_trend (fun l => l) (fun _ => 0) (fun l => l) (fun a _ => a) ["x"%string] g (fun _ _ _ => d)
    (fun a => Ok (fun _ => if String.eqb a "eta" then 2 else 1)) kuramoto) [0; 1 / 10] (fun i => INR (nth 1 i O)) SNone = Ok traj /\
  dget Req_EM_T (1 / 10) traj = Some v /\ field_sum 5 v = 10.
Proof.
  destruct (kuramoto_class_exists 5 1 2 5 ltac:(lia)) as (g & d & _ & KC).
  destruct (C118_kuramoto_sum 5 1 2 5 _ (fun _ => 0) _ (fun a _ => a) g _ _ [0; 1 / 10] (fun i => INR (nth 1 i O)) SNone SRk4 ltac:(lra) KC ltac:(discriminate) ltac:(discriminate))
    as (traj & E & H).
  destruct (H (1 / 10) ltac:(right; left; reflexivity) ltac:(right; left; reflexivity)) as (v & G & S).
  exists g, d, traj, v. split; [exact E|]. split; [exact G|]. rewrite S. unfold field_sum. cbn. ring.
Qed.

(** ** C119: convergence *)
(** Every scheme converges to every smooth periodic solution of Burgers' equation: on fine enough grids, by steps of at most the
    square of the spacing over 4 kappa, the root mean square of the error is at most C times the square of the spacing, and the
    largest error at most C times its power 3/2 *)
Theorem C119_burgers (L kappa t0 t1 : R) u ut utt : 0 < L -> 0 < kappa -> burgers_solution L kappa t0 t1 u ut utt ->
  exists C n0, forall n enum x ord rpow g caches attr tau w state sv scheme, (n0 <= n)%nat -> line_class L kappa n enum ord g caches attr ->
    runs t0 t1 tau w -> 0 <= tau -> 4 * kappa * tau <= mesh L n ^ 2 -> sampled L n (u O t0) state -> sv <> SOther ->
    exists traj, forecast Req_EM_T Rminus (@onestep_fun RF (list nat) scheme) (generated_trend enum x ord rpow ["x"%string] g caches attr burgers) w state sv = Ok traj /\
      forall t, In t w -> is_saved w sv t -> exists s, dget Req_EM_T t traj = Some s /\
        line_rms L n (u O t) s <= C * mesh L n ^ 2 /\ within L n (C * sqrt (INR n) * mesh L n ^ 2) (u O t) s.
Proof. exact (burgers_rms L kappa t0 t1 u ut utt). Qed.
Print Assumptions C119_burgers.

Theorem C119_kuramoto (L kappa eta t0 t1 : R) u ut utt : 0 < L -> 0 < eta -> kuramoto_solution L kappa eta t0 t1 u ut utt ->
  exists C n0, forall n enum x ord rpow g caches attr tau w state sv scheme, (n0 <= n)%nat -> kuramoto_class L kappa eta n enum ord g caches attr ->
    runs t0 t1 tau w -> 0 <= tau -> tau * (4 * Rabs kappa / mesh L n ^ 2 + 16 * eta / mesh L n ^ 4) <= 1 -> sampled L n (u O t0) state -> sv <> SOther ->
    exists traj, forecast Req_EM_T Rminus (@onestep_fun RF (list nat) scheme) (generated_trend enum x ord rpow ["x"%string] g caches attr kuramoto) w state sv = Ok traj /\
      forall t, In t w -> is_saved w sv t -> exists s, dget Req_EM_T t traj = Some s /\
        line_rms L n (u O t) s <= C * mesh L n ^ 2 /\ within L n (C * sqrt (INR n) * mesh L n ^ 2) (u O t) s.
Proof. exact (kuramoto_rms L kappa eta t0 t1 u ut utt). Qed.
Print Assumptions C119_kuramoto.

(** the wave of Cole and Hopf of viscosity 1/10 on the period 2 pi with the default scheme, by steps of twice the square of the spacing *)
Example C119_burgers_example (t1 : R) : exists C n0, forall n w state sv, (n0 <= n)%nat -> let h := mesh (2 * PI) n in
  runs 0 t1 (2 * h ^ 2) w -> sampled (2 * PI) n (hopf (1 / 10) O 0) state -> sv <> SOther ->
  exists g d traj, forecast Req_EM_T Rminus (@rk4 RF (list nat))
      (generated_trend (fun l => l) (fun _ => 0) (fun l => l) (fun a _ => a) ["x"%string] g (fun _ _ _ => d) (fun _ => Ok (fun _ => 1 / 10)) burgers) w state sv = Ok traj /\
    forall t, In t w -> is_saved w sv t -> exists s, dget Req_EM_T t traj = Some s /\ line_rms (2 * PI) n (hopf (1 / 10) O t) s <= C * h ^ 2.
Proof.
  assert (PL : 0 < 2 * PI) by (pose proof PI_RGT_0; lra).
  destruct (C119_burgers (2 * PI) (1 / 10) 0 t1 (hopf (1 / 10)) (hopf_t (1 / 10)) (hopf_tt (1 / 10)) PL ltac:(lra) (hopf_solution (1 / 10) ltac:(lra) t1)) as (C & n0 & HC).
  exists C, (S n0). intros n w state sv Hn h W Hs Hsv.
  destruct (class_exists (2 * PI) (1 / 10) n ltac:(lia)) as (g & d & Hd & LC).
  destruct (HC n (fun l => l) (fun _ => 0) (fun l => l) (fun a _ => a) g (fun _ _ _ => d) (fun _ => Ok (fun _ => 1 / 10)) (2 * h ^ 2) w state sv SRk4 ltac:(lia) LC W)
    as (traj & E & H); auto.
  - pose proof (pow2_ge_0 h). lra.
  - fold h. pose proof (pow2_ge_0 h). lra.
  - exists g, d, traj. split; [exact E|]. intros t Ht Hv. destruct (H t Ht Hv) as (s & G & Hw & _). exists s. auto.
Qed.
(** constant fields solve the Kuramoto-Sivashinsky equation; other periodic solutions have no closed form *)
Example C119_kuramoto_example : kuramoto_solution 1 1 1 0 1 (still 3) (fun _ _ => 0) (fun _ _ => 0).
Proof. exact (still_solution 1 1 1 0 1 3). Qed.
Example C119_class_example : exists g d, init_index ["x"%string] [8%nat] = Ok d /\
  kuramoto_class 1 1 2 8 (fun l => l) (fun l => l) g (fun _ _ _ => d) (fun a => Ok (fun _ => if String.eqb a "eta" then 2 else 1)).
Proof. exact (kuramoto_class_exists 1 1 2 8 ltac:(lia)). Qed.
