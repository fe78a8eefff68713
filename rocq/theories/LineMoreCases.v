(** Concrete cases for C117 to C119, and the wave that the model generated from the 1D advection leaves where
    it is. *)
From Coq Require Import List Arith ZArith Bool Reals String Lia Lra Permutation Psatz.
From Verif Require Import PyBase Scalars FieldFacts SymModel FDReal FDExprModel GridModel GridSpec ConsistSpec GridMore ConsistMain ForecastModel ForecastSpec
  SchemesModel SchemesSpec LineModel LineSpec LineProofs LineConv LineCases LineMoreModel LineMoreSpec LineMoreProofs LineMoreForecast LineRms.
Import ListNotations.
Open Scope R_scope.

Lemma wind_class_exists (L : R) (wind : list nat -> R) n : (0 < n)%nat -> exists g d, init_index ["x"%string] [n] = Ok d /\
  wind_class L wind n (fun l => l) (fun l => l) g (fun _ _ _ => d) (fun _ => Ok wind).
Proof.
  intros Hn.
  destruct (@grid_init_ok RF ["x"%string] (Some [n]) (Some [L]) ltac:(repeat constructor; intros []) eq_refl eq_refl) as (g & Hg & _).
  { intros m [<-|[]]. lia. }
  exists g. eexists. split; [reflexivity|]. split; auto; try (intros; apply Permutation_refl).
  intros t v a. exists []. eexists. split; reflexivity.
Qed.
Lemma kuramoto_class_exists (L kappa eta : R) n : (0 < n)%nat -> exists g d, init_index ["x"%string] [n] = Ok d /\
  kuramoto_class L kappa eta n (fun l => l) (fun l => l) g (fun _ _ _ => d) (fun a => Ok (fun _ => if String.eqb a "eta" then eta else kappa)).
Proof.
  intros Hn.
  destruct (@grid_init_ok RF ["x"%string] (Some [n]) (Some [L]) ltac:(repeat constructor; intros []) eq_refl eq_refl) as (g & Hg & _).
  { intros m [<-|[]]. lia. }
  exists g. eexists. split; [reflexivity|]. split; [|reflexivity]. split; auto; try (intros; apply Permutation_refl).
  intros t v a. exists []. eexists. split; reflexivity.
Qed.

(** a wave carried by a wind of 1 *)
Definition wave (t x : R) : R := cos (x - t).
Lemma wave_carried : carried_by (2 * PI) (fun _ => 1) wave (fun t x => - sin (x - t)) (fun t x => sin (x - t)).
Proof.
  intros t x. split; [|split; [|split]].
  - unfold wave. eapply dl_eq; [|apply (derivable_pt_lim_comp (fun y => y - t) cos)].
    2:{ apply (derivable_pt_lim_minus id (fun _ => t)); [apply derivable_pt_lim_id|apply derivable_pt_lim_const]. }
    2:{ apply derivable_pt_lim_cos. }
    ring.
  - unfold wave. eapply dl_eq; [|apply (derivable_pt_lim_comp (fun s => x - s) cos)].
    2:{ apply (derivable_pt_lim_minus (fun _ => x) id); [apply derivable_pt_lim_const|apply derivable_pt_lim_id]. }
    2:{ apply derivable_pt_lim_cos. }
    ring.
  - ring.
  - unfold wave. replace (x + 2 * PI - t) with (x - t + 2 * INR 1 * PI) by (cbn; ring). apply cos_period.
Qed.
Lemma wave_stays n enum x ord rpow g caches attr w (state : list nat -> R) sv s : (0 < n)%nat ->
  wind_class (2 * PI) (fun _ => 1) n enum ord g caches attr -> nth_error w 0 = Some 0 -> In PI w -> is_saved w sv PI -> sv <> SOther ->
  sampled (2 * PI) n (wave 0) state ->
  exists traj v, forecast Req_EM_T Rminus (@onestep_fun RF (list nat) s) (generated_trend enum x ord rpow ["x"%string] g caches attr line_advection) w state sv = Ok traj /\
    dget Req_EM_T PI traj = Some v /\ v [O; O] - wave PI 0 = 2.
Proof.
  intros Hn WC W0 Hi Hv Hsv Hs. pose proof PI_RGT_0 as P.
  destruct (wind_forecast (2 * PI) (fun _ => 1) n enum x ord rpow g caches attr 0 w state sv s ltac:(lra) WC W0 Hsv) as (traj & E & H).
  destruct (H PI Hi Hv) as (v & G & Hj). exists traj, v. split; [exact E|]. split; [exact G|]. rewrite (Hj O Hn).
  rewrite (Hs O Hn). unfold wave, d1. cbn [INR]. replace (0 * mesh (2 * PI) n - 0) with 0 by ring. replace (0 - PI) with (- PI) by ring.
  rewrite cos_0, cos_neg, cos_PI. unfold Rdiv. ring.
Qed.

(** a constant field solves the Kuramoto-Sivashinsky equation *)
Definition still (c : R) (k : nat) (t x : R) : R := match k with O => c | _ => 0 end.
Lemma still_solution L kappa eta t0 t1 c : kuramoto_solution L kappa eta t0 t1 (still c) (fun _ _ => 0) (fun _ _ => 0).
Proof.
  split.
  - intros k t x _ _. destruct k; apply derivable_pt_lim_const.
  - intros t x _. apply derivable_pt_lim_const.
  - intros t x _. apply derivable_pt_lim_const.
  - intros t x _. cbn. ring.
  - reflexivity.
  - exists (Rabs c). intros t x _. pose proof (Rabs_pos c). split; [|rewrite Rabs_R0; auto].
    intros [|k] _; cbn; [lra|rewrite Rabs_R0; auto].
Qed.
