(** C109: the forecasts of the models generated from the diffusion and from Burgers' equation converge to
    the solutions, under the stability condition of the scheme, and blow up without it. *)
From Coq Require Import List Arith ZArith Bool Reals String Lia Lra Permutation.
From Verif Require Import PyBase Scalars FieldFacts FDReal GridModel ForecastModel ForecastSpec SchemesModel SchemesSpec
  LineModel LineSpec LineProofs LineConv LineCases.
Import ListNotations.
Open Scope R_scope.

(** the finite-difference scheme that the generated method trend computes *)
Theorem C109_burgers_scheme (L kappa : R) n enum x ord rpow g caches attr t state : 0 < L ->
  line_class L kappa n enum ord g caches attr ->
  exists r, generated_trend enum x ord rpow ["x"%string] g caches attr burgers t state = Ok r /\
    forall j, (j < n)%nat -> let h := L / INR n in
      let u := state [O; j] in let next := state [O; (j + 1) mod n]%nat in let prev := state [O; (j + n - 1) mod n]%nat in
      r [O; j] = - u * ((next - prev) / (2 * h)) + kappa * ((next - 2 * u + prev) / h ^ 2).
Proof.
  intros PL LC. destruct (burgers_trend L kappa n enum x ord rpow g caches attr LC PL t state) as (r & E & H).
  exists r. split; [exact E|]. intros j Hj. cbv zeta. rewrite <- shift_next, <- shift_prev by auto. apply H; auto.
Qed.
Print Assumptions C109_burgers_scheme.
Theorem C109_diffusion_scheme (L kappa : R) n enum x ord rpow g caches attr t state : 0 < L ->
  line_class L kappa n enum ord g caches attr ->
  exists r, generated_trend enum x ord rpow ["x"%string] g caches attr diffusion t state = Ok r /\
    forall j, (j < n)%nat -> let h := L / INR n in
      let u := state [O; j] in let next := state [O; (j + 1) mod n]%nat in let prev := state [O; (j + n - 1) mod n]%nat in
      r [O; j] = kappa * ((next - 2 * u + prev) / h ^ 2).
Proof.
  intros PL LC. destruct (diffusion_trend L kappa n enum x ord rpow g caches attr LC PL t state) as (r & E & H).
  exists r. split; [exact E|]. intros j Hj. cbv zeta. rewrite <- shift_next, <- shift_prev by auto. apply H; auto.
Qed.
Print Assumptions C109_diffusion_scheme.

Theorem C109_burgers (L kappa t0 t1 M0 : R) u ut utt : 0 < L -> burgers_solution L kappa t0 t1 u ut utt ->
  (forall x, Rabs (u O t0 x) <= M0) ->
  exists C, forall n enum x ord rpow g caches attr tau w state sv,
    line_class L kappa n enum ord g caches attr -> runs t0 t1 tau w -> sampled L n (u O t0) state ->
    0 <= tau -> 2 * kappa * tau <= mesh L n ^ 2 -> M0 * mesh L n <= 2 * kappa -> sv <> SOther ->
    exists traj, forecast Req_EM_T Rminus (@euler RF (list nat)) (generated_trend enum x ord rpow ["x"%string] g caches attr burgers) w state sv = Ok traj /\
      forall t, In t w -> is_saved w sv t -> exists s, dget Req_EM_T t traj = Some s /\ within L n (C * (tau + mesh L n ^ 2)) (u O t) s.
Proof. exact (burgers_forecast L kappa t0 t1 M0 u ut utt). Qed.
Print Assumptions C109_burgers.

Theorem C109_diffusion (L kappa t0 t1 : R) u scheme : 0 < L -> diffusion_solution L kappa t0 t1 u -> 0 <= kappa ->
  exists C, forall n enum x ord rpow g caches attr tau w state sv,
    line_class L kappa n enum ord g caches attr -> runs t0 t1 tau w -> sampled L n (u O t0) state ->
    0 <= tau -> 2 * kappa * tau <= mesh L n ^ 2 -> sv <> SOther ->
    exists traj, forecast Req_EM_T Rminus (@onestep_fun RF (list nat) scheme) (generated_trend enum x ord rpow ["x"%string] g caches attr diffusion) w state sv = Ok traj /\
      forall t, In t w -> is_saved w sv t -> exists s, dget Req_EM_T t traj = Some s /\
        within L n (C * (tau ^ onestep_order scheme + mesh L n ^ 2)) (u O t) s.
Proof. intros PL DS Hk. exact (diffusion_forecast L kappa t0 t1 u PL DS Hk scheme). Qed.
Print Assumptions C109_diffusion.

(** the stability condition cannot be dropped: a saw tooth, however small, grows without bound *)
Theorem C109_unstable (L kappa dt eps : R) n : 0 < L -> Nat.Even n -> 0 < dt -> mesh L n ^ 2 < 2 * kappa * dt -> eps <> 0 ->
  forall B, exists N0, forall N enum x ord rpow g caches attr t0 state, (N0 <= N)%nat ->
    line_class L kappa n enum ord g caches attr ->
    (forall j, (j < n)%nat -> state [O; j] = eps * (-1) ^ j) ->
    exists traj s, forecast Req_EM_T Rminus (@euler RF (list nat)) (generated_trend enum x ord rpow ["x"%string] g caches attr diffusion)
        (map (fun k => t0 + INR k * dt) (seq 0 (S N))) state SNone = Ok traj /\
      dget Req_EM_T (t0 + INR N * dt) traj = Some s /\ forall j, (j < n)%nat -> B <= Rabs (s [O; j]).
Proof.
  intros PL EV Pdt HU He B. destruct n as [|n].
  { exists O. intros N enum x ord rpow g caches attr t0 state _ LC. pose proof (n_pos L kappa _ enum ord g caches attr LC). lia. }
  destruct (diffusion_blow_up L kappa dt eps (S n) PL ltac:(lia) HU He B) as (N0 & HN).
  exists N0. intros N enum x ord rpow g caches attr t0 state Hle LC H0.
  destruct (diffusion_unstable L kappa (S n) enum x ord rpow g caches attr t0 dt eps state N PL LC EV Pdt H0) as (traj & s & E & G & Hs).
  exists traj, s. split; [exact E|]. split; [exact G|]. intros j Hj. rewrite Hs by auto. apply HN; auto.
Qed.
Print Assumptions C109_unstable.

(** the wave of Cole and Hopf of viscosity 1, on at least 7 points of the period 2 pi, by steps of half the
    square of the spacing: the error at every saved time is at most C times the square of the spacing *)
Example C109_burgers_example (t1 : R) : exists C, forall n w state sv, (7 <= n)%nat -> let h := mesh (2 * PI) n in
  runs 0 t1 (h ^ 2 / 2) w -> sampled (2 * PI) n (hopf 1 O 0) state -> sv <> SOther ->
  exists g d traj, @grid_init RF ["x"%string] (Some [n]) (Some [2 * PI]) = Ok g /\
    forecast Req_EM_T Rminus (@euler RF (list nat))
      (generated_trend (fun l => l) (fun _ => 0) (fun l => l) (fun a _ => a) ["x"%string] g (fun _ _ _ => d) (fun _ => Ok (fun _ => 1)) burgers) w state sv = Ok traj /\
    forall t, In t w -> is_saved w sv t -> exists s, dget Req_EM_T t traj = Some s /\ within (2 * PI) n (C * h ^ 2) (hopf 1 O t) s.
Proof.
  assert (PL : 0 < 2 * PI) by (pose proof PI_RGT_0; lra).
  destruct (C109_burgers (2 * PI) 1 0 t1 2 (hopf 1) (hopf_t 1) (hopf_tt 1) PL (hopf_solution 1 Rle_0_1 t1)) as (C & HC).
  { intros x. pose proof (hopf_start 1 Rle_0_1 x). lra. }
  exists (C * (3 / 2)). intros n w state sv Hn h W Hs Hsv.
  destruct (class_exists (2 * PI) 1 n ltac:(lia)) as (g & d & Hd & LC).
  assert (Hh : 0 < h <= 1).
  { unfold h, mesh. assert (7 <= INR n) by (replace 7 with (INR 7) by (cbn; ring); apply le_INR; auto). split.
    - apply Rdiv_lt_0_compat; lra.
    - apply (Rmult_le_reg_r (INR n)); [lra|]. unfold Rdiv. rewrite Rmult_assoc, Rinv_l by lra.
      pose proof PI_4. pose proof (PI_ineq 2) as PQ. assert (PI <= 7 / 2). { destruct PQ as [_ P]. unfold tg_alt, PI_tg in P. cbn in P. lra. } lra. }
  destruct (HC n (fun l => l) (fun _ => 0) (fun l => l) (fun a _ => a) g (fun _ _ _ => d) (fun _ => Ok (fun _ => 1)) (h ^ 2 / 2) w state sv LC W Hs)
    as (traj & E & H); try nra; auto.
  - fold h. lra.
  - fold h. lra.
  - exists g, d, traj. split; [apply (lc_grid _ _ _ _ _ _ _ _ LC)|]. split; [exact E|]. intros t Ht Hv. destruct (H t Ht Hv) as (s & G & Hw).
    exists s. split; [exact G|]. replace (C * (3 / 2) * h ^ 2) with (C * (h ^ 2 / 2 + mesh (2 * PI) n ^ 2)) by (fold h; field). exact Hw.
Qed.
(** such a window *)
Example C109_runs_example : runs 0 1 (1 / 2) [0; 1 / 2; 1 / 2; 1].
Proof.
  split; [reflexivity|]. split.
  - intros k t t' H H'. destruct k as [|[|[|[|k]]]]; cbn in H, H'; try discriminate; injection H as <-; injection H' as <-; lra.
  - intros t [<-|[<-|[<-|[<-|[]]]]]; lra.
Qed.
(** a decaying wave of diffusivity 1 on 8 points, one step of a tenth by the default scheme *)
Example C109_diffusion_example : exists C g d traj s, @grid_init RF ["x"%string] (Some [8%nat]) (Some [2 * PI]) = Ok g /\
  forecast Req_EM_T Rminus (@rk4 RF (list nat))
    (generated_trend (fun l => l) (fun _ => 0) (fun l => l) (fun a _ => a) ["x"%string] g (fun _ _ _ => d) (fun _ => Ok (fun _ => 1)) diffusion)
    [0; 1 / 10] (fun i => heat 1 O 0 (INR (nth 1 i O) * mesh (2 * PI) 8)) SNone = Ok traj /\
  dget Req_EM_T (1 / 10) traj = Some s /\ within (2 * PI) 8 (C * ((1 / 10) ^ 4 + mesh (2 * PI) 8 ^ 2)) (heat 1 O (1 / 10)) s.
Proof.
  assert (PL : 0 < 2 * PI) by (pose proof PI_RGT_0; lra).
  destruct (C109_diffusion (2 * PI) 1 0 1 (heat 1) SRk4 PL (heat_solution 1 1 Rle_0_1) Rle_0_1) as (C & HC).
  destruct (class_exists (2 * PI) 1 8 ltac:(lia)) as (g & d & Hd & LC).
  destruct (HC 8%nat (fun l => l) (fun _ => 0) (fun l => l) (fun a _ => a) g (fun _ _ _ => d) (fun _ => Ok (fun _ => 1)) (1 / 10) [0; 1 / 10]
     (fun i => heat 1 O 0 (INR (nth 1 i O) * mesh (2 * PI) 8)) SNone LC) as (traj & E & H).
  - split; [reflexivity|]. split.
    + intros k t t' H H'. destruct k as [|[|k]]; cbn in H, H'; try discriminate; injection H as <-; injection H' as <-; lra.
    + intros t [<-|[<-|[]]]; lra.
  - intros j Hj. reflexivity.
  - lra.
  - unfold mesh. replace (INR 8) with 8 by (cbn; ring). pose proof PI2_1. nra.
  - discriminate.
  - destruct (H (1 / 10) ltac:(right; left; reflexivity) ltac:(right; left; reflexivity)) as (s & G & Hw).
    exists C, g, d, traj, s. split; [apply (lc_grid _ _ _ _ _ _ _ _ LC)|]. auto.
Qed.
(** the instability on 2 points of the period 2: the spacing is 1, the steps are 1 *)
Example C109_unstable_example : mesh 2 2 ^ 2 < 2 * 1 * 1 /\ Nat.Even 2.
Proof. split; [unfold mesh; cbn; lra|exists 1%nat; reflexivity]. Qed.
Example C109_class_example : exists g d, init_index ["x"%string] [8%nat] = Ok d /\
  line_class 2 1 8 (fun l => l) (fun l => l) g (fun _ _ _ => d) (fun _ => Ok (fun _ => 1)).
Proof. exact (class_exists 2 1 8 ltac:(lia)). Qed.
