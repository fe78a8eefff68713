(** C110: the energy of linear conservative dynamics (rotations, waves, advection) under the time schemes:
    rk4 dissipates it under a limit on the step, euler and rk2 always increase it, leapfrog keeps a
    quadratic invariant. *)
From Coq Require Import List Arith ZArith Bool Reals String Lia Lra Psatz FunctionalExtensionality.
From Verif Require Import PyBase Scalars FieldFacts FDReal ForecastModel ForecastSpec SchemesModel SchemesSpec
  EnergySpec EnergyProofs.
Import ListNotations.
Open Scope R_scope.

(** one step *)
Theorem C110_step {I} (ip : arr RF I -> arr RF I -> R) f : inner_product ip -> @linear RF I I f -> conservative ip f ->
  forall s (t dt : R) x, exists y, @onestep_fun RF I s (@pure RF I (fun _ => f)) t x dt = Ok y /\
    ip y y = ip x x + match s with
                      | SEuler => dt ^ 2 * ip (f x) (f x)
                      | SRk2 => dt ^ 4 / 4 * ip (f (f x)) (f (f x))
                      | SRk4 => - (dt ^ 6 / 72 * ip (f (f (f x))) (f (f (f x))))
                                + dt ^ 8 / 576 * ip (f (f (f (f x)))) (f (f (f (f x))))
                      end.
Proof. intros P L C s t dt x. exact (step_ok ip f P L C s t dt x). Qed.
Print Assumptions C110_step.

(** rk4, the default scheme: steps of at most 2 sqrt 2 / m never increase the energy *)
Theorem C110_rk4 {I} (ip : arr RF I -> arr RF I -> R) f m : inner_product ip -> @linear RF I I f -> conservative ip f ->
  at_most ip f m -> 0 <= m -> forall tau w x0 sv, tau * m <= 2 * sqrt 2 -> by_steps tau w -> w <> [] -> sv <> SOther ->
  exists traj, forecast Req_EM_T Rminus (@rk4 RF I) (@pure RF I (fun _ => f)) w x0 sv = Ok traj /\
    forall t, In t w -> is_saved w sv t -> exists x, dget Req_EM_T t traj = Some x /\ ip x x <= ip x0 x0.
Proof.
  intros P L C M Pm tau w x0 sv H. apply (forecast_rk4 ip f P L C m tau w x0 sv M Pm).
  replace (sqrt 8) with (2 * sqrt 2); [exact H|]. replace 8 with (2 ^ 2 * 2) by ring. rewrite sqrt_mult by lra. rewrite sqrt_pow2; lra.
Qed.
Print Assumptions C110_rk4.

(** a mode of frequency m: the exact energy after N steps *)
Theorem C110_mode {I} (ip : arr RF I -> arr RF I -> R) f m x0 : inner_product ip -> @linear RF I I f -> conservative ip f ->
  mode f m x0 -> forall s t0 dt N, dt <> 0 ->
  exists traj x, forecast Req_EM_T Rminus (@onestep_fun RF I s) (@pure RF I (fun _ => f)) (times t0 dt N) x0 SNone = Ok traj /\
    dget Req_EM_T (t0 + INR N * dt) traj = Some x /\
    let z := (dt * m) ^ 2 in
    ip x x = (match s with SEuler => 1 + z | SRk2 => 1 + z ^ 2 / 4 | SRk4 => 1 - z ^ 3 / 72 + z ^ 4 / 576 end) ^ N * ip x0 x0.
Proof. intros P L C M s t0 dt N. exact (forecast_mode ip f P L C s m t0 dt N x0 M). Qed.
Print Assumptions C110_mode.

(** the limit of rk4 is sharp; there is none for euler and rk2: the energy of a mode grows without bound *)
Theorem C110_unstable {I} (ip : arr RF I -> arr RF I -> R) f m x0 : inner_product ip -> @linear RF I I f -> conservative ip f ->
  mode f m x0 -> 0 < ip x0 x0 -> forall s t0 dt, match s with SRk4 => 2 * sqrt 2 < dt * m | _ => dt * m <> 0 end ->
  forall B, exists N0, forall N, (N0 <= N)%nat ->
  exists traj x, forecast Req_EM_T Rminus (@onestep_fun RF I s) (@pure RF I (fun _ => f)) (times t0 dt N) x0 SNone = Ok traj /\
    dget Req_EM_T (t0 + INR N * dt) traj = Some x /\ B <= ip x x.
Proof.
  intros P L C M E0 s t0 dt H B.
  assert (S2 : sqrt 2 * sqrt 2 = 2) by (apply sqrt_sqrt; lra). pose proof (sqrt_pos 2) as S0.
  destruct (blow_up (factor s ((dt * m) ^ 2)) (ip x0 x0) B) as (N0 & HN); auto.
  { apply factor_large. destruct s; [nra|nra|]. assert ((2 * sqrt 2) ^ 2 = 8) by (cbn; lra). nra. }
  exists N0. intros N HN'. assert (Hd : dt <> 0). { intros ->. destruct s; nra. }
  destruct (forecast_mode ip f P L C s m t0 dt N x0 M Hd) as (traj & x & Et & G & Ex).
  exists traj, x. split; [exact Et|]. split; [exact G|]. rewrite Ex. apply HN; auto.
Qed.
Print Assumptions C110_unstable.

(** leapfrog on a regular window: |a|^2 + |b|^2 - 2 dt <b, f a> is the same for the pairs at all times; the
    energies stay bounded when dt m < 1 *)
Theorem C110_leapfrog {I} (ip : arr RF I -> arr RF I -> R) f m : inner_product ip -> @linear RF I I f -> conservative ip f ->
  at_most ip f m -> 0 <= m -> forall t0 dt N a b sv, 0 <= dt -> sv <> SOther ->
  exists traj, forecast Req_EM_T Rminus (@leapfrog RF I) (@pure RF I (fun _ => f)) (times t0 dt N) [a; b] sv = Ok traj /\
    forall t, In t (times t0 dt N) -> is_saved (times t0 dt N) sv t -> exists c d, dget Req_EM_T t traj = Some [c; d] /\
      ip c c + ip d d - 2 * dt * ip d (f c) = ip a a + ip b b - 2 * dt * ip b (f a) /\
      (1 - dt * m) * (ip c c + ip d d) <= (1 + dt * m) * (ip a a + ip b b).
Proof. intros P L C M Pm t0 dt N a b sv. exact (forecast_leapfrog ip f P L C m t0 dt N a b sv M Pm). Qed.
Print Assumptions C110_leapfrog.

(** the rotation of the plane, of frequency 3 *)
Definition dot2 (a b : arr RF bool) : R := a true * b true + a false * b false.
Definition rotation (a : arr RF bool) : arr RF bool := fun i => if i then 3 * a false else - (3 * a true).
Definition axis : arr RF bool := fun i => if i then 1 else 0.
Example C110_rotation_example : inner_product dot2 /\ @linear RF bool bool rotation /\ conservative dot2 rotation /\
  at_most dot2 rotation 3 /\ mode rotation 3 axis /\ 0 < dot2 axis axis.
Proof.
  split; [|split; [|split; [|split; [|split]]]].
  - split; intros; unfold dot2, vadd, vscale; cbn; try ring. nra.
  - split; intros; apply functional_extensionality; intros []; unfold rotation, vadd, vscale; cbn; ring.
  - intros x. unfold dot2, rotation. ring.
  - intros x. unfold dot2, rotation. apply Req_le. ring.
  - apply functional_extensionality; intros []; unfold rotation, axis, vscale; cbn; ring.
  - unfold dot2, axis. lra.
Qed.
(** ten steps of a third with euler multiply the energy by 2^10 *)
Example C110_euler_example : exists traj x,
  forecast Req_EM_T Rminus (@euler RF bool) (@pure RF bool (fun _ => rotation)) (times 0 (1 / 3) 10) axis SNone = Ok traj /\
  dget Req_EM_T (0 + INR 10 * (1 / 3)) traj = Some x /\ dot2 x x = 1024.
Proof.
  destruct C110_rotation_example as (P & L & C & _ & M & _).
  destruct (C110_mode dot2 rotation 3 axis P L C M SEuler 0 (1 / 3) 10 ltac:(lra)) as (traj & x & Et & G & Ex).
  exists traj, x. split; [exact Et|]. split; [exact G|]. cbv zeta in Ex. rewrite Ex. unfold dot2, axis. field.
Qed.
Example C110_window_example : by_steps (1 / 2) [0; 1 / 2; 1] /\ 1 / 2 * 3 <= 2 * sqrt 2.
Proof.
  split.
  - intros k t t' H H'. destruct k as [|[|[|k]]]; cbn in H, H'; try discriminate; injection H as <-; injection H' as <-; lra.
  - assert (1 <= sqrt 2) by (rewrite <- sqrt_1 at 1; apply sqrt_le_1; lra). lra.
Qed.
