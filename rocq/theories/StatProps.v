(** Property C114: the parametric dynamics of advection, generated and run, forecasts the statistics of the ensemble. *)
From Coq Require Import List Arith ZArith QArith Bool Reals String Lia Lra Permutation.
From Verif Require Import PyBase PyBaseFacts Scalars FieldFacts SymModel FDExprModel FDExprSpec FDReal GridModel GridSpec ForecastModel ForecastSpec ConsistSpec ConsistProofs ConsistMain
  Reynolds PKFModel PKFSpec PKFLinearSpec SchemesModel LineModel LineSpec AdvectModel AdvectSpec AdvectGrid AdvectTrend AdvectCases WindSpec WindMain
  StatModel StatSmooth StatSpec StatMean StatMain StatLink StatCases.
Import ListNotations.
Close Scope Q_scope.
Open Scope nat_scope.
Open Scope R_scope.

(** The system handed to the generator is the parametric dynamics of advection in aspect: one equation for the mean,
    the variance and each entry of the tensor, with right-hand sides of the same values. *)
Theorem C114_equations c enum enumD enumC enumF enumU : rearrangements enum enumD enumC enumF enumU ->
  exists a fs, in_aspect enum enumD enumC enumF enumU (axes c) [transport_rhs (axes c) (fun _ => axes c) None None] [] = Ok a
    /\ map fst a = map time_derivative fs /\ Permutation fs (map (qty_fn c) (statistics_of c))
    /\ forall (A : RAlg) (E : env A), PKFSpec.statistics (axes c) 1 E -> tensor_is (axes c) 1 E FAsp FInvAsp 1%Q ->
         forall q r, In q (statistics_of c) -> In (time_derivative (qty_fn c q), r) a -> pv E r = pv E (map (term_poly c) (rate_terms c q)).
Proof. exact (statistics_equations c enum enumD enumC enumF enumU). Qed.
Print Assumptions C114_equations.

(** The mean and the variance of a finite ensemble carried by the winds are carried, and its aspect tensor is carried
    and deformed by the derivatives of the winds. *)
Theorem C114_dynamics n lengths w V T0 T1 N pi u s : smooth_winds n lengths w V -> carried_ensemble n lengths w T0 T1 N pi u s ->
  forall t p, T0 < t < T1 ->
  (exists d, (forall k, (k < n)%nat -> derivable_pt_lim (fun y => ens_mean N pi (fun r t p => u r O t none p) t (@at_coord RF p k y)) (p k) (d k)) /\
     derivable_pt_lim (fun t => ens_mean N pi (fun r t p => u r O t none p) t p) t (- fold_right Rplus 0 (map (fun k => w k none p * d k) (seq 0 n)))) /\
  (exists d, (forall k, (k < n)%nat -> derivable_pt_lim (fun y => ens_variance N pi (fun r t p => u r O t none p) t (@at_coord RF p k y)) (p k) (d k)) /\
     derivable_pt_lim (fun t => ens_variance N pi (fun r t p => u r O t none p) t p) t (- fold_right Rplus 0 (map (fun k => w k none p * d k) (seq 0 n)))) /\
  forall a b, (a < n)%nat -> (b < n)%nat ->
  exists d, (forall k, (k < n)%nat -> derivable_pt_lim (fun y => s a b t (@at_coord RF p k y)) (p k) (d k)) /\
    derivable_pt_lim (fun t => s a b t p) t (- fold_right Rplus 0 (map (fun k => w k none p * d k) (seq 0 n))
      + fold_right Rplus 0 (map (fun k => s a k t p * w b (inc k none) p + s k b t p * w a (inc k none) p) (seq 0 n))).
Proof. exact (ensemble_dynamics n lengths w V T0 T1 N pi u s). Qed.
Print Assumptions C114_dynamics.

(** Started from the statistics of the ensemble at the points of the grid and run by rk4 within the Courant limit,
    the generated class stays within C (tau^4 + h^2) of the statistics of the ensemble. *)
Theorem C114_converges c lengths w V T0 T1 N pi u s t0 t1 : smooth_winds (List.length lengths) lengths w V ->
  carried_ensemble (List.length lengths) lengths w T0 T1 N pi u s -> T0 < t0 -> t1 < T1 ->
  exists C, forall shape enum x ord rpow (g : @grid RF) caches attr tau win state sv,
    advect_class c lengths shape (wind_arrays (List.length lengths) (g_dx g) (fun k => w k none)) enum ord g caches attr ->
    runs t0 t1 tau win ->
    (forall i js, (i < statistics_count (List.length lengths))%nat -> in_range shape js ->
       state (i :: js) = statistic (List.length lengths) N pi (fun r t p => u r O t none p) s i t0 (grid_point (g_dx g) js)) ->
    0 <= tau -> tau * over_axes shape (fun k => V k / step_of lengths shape k) <= 2 * sqrt 2 -> sv <> SOther ->
    exists traj, forecast Req_EM_T Rminus (@rk4 RF (list nat)) (generated_trend enum x ord rpow (axes c) g caches attr (pkf_advection c)) win state sv = Ok traj /\
      forall t, In t win -> is_saved win sv t -> exists r, dget Req_EM_T t traj = Some r /\
        forall i, (i < statistics_count (List.length lengths))%nat ->
          row_error (g_dx g) shape i (statistic (List.length lengths) N pi (fun r t p => u r O t none p) s i t) r <= C * (tau ^ 4 + largest (g_dx g) ^ 2).
Proof. exact (statistics_forecast c lengths w V T0 T1 N pi u s t0 t1). Qed.
Print Assumptions C114_converges.

(** the system in the plane, its text in the order of the model *)
Example C114_system_example : map (fun q => SymModel.SAdd (map (term_sx Plane) (rate_terms Plane q))) [QVar; QAsp 0 1] =
  let f n := SymModel.SApp n [SymModel.SSym SymModel.Plain "t"; SymModel.SSym SymModel.Plain "x"; SymModel.SSym SymModel.Plain "y"] in let D e v := SymModel.SDer e [(v, 1%nat)] in
  let g n := SymModel.SApp n [SymModel.SSym SymModel.Plain "x"; SymModel.SSym SymModel.Plain "y"] in
  [SymModel.SAdd [SymModel.SMul [SymModel.SNum (-1); g "u"; D (f "{V_{c}}") "x"]; SymModel.SMul [SymModel.SNum (-1); g "v"; D (f "{V_{c}}") "y"]];
   SymModel.SAdd [SymModel.SMul [SymModel.SNum (-1); g "u"; D (f "{s_{c,xy}}") "x"]; SymModel.SMul [SymModel.SNum (-1); g "v"; D (f "{s_{c,xy}}") "y"];
     SymModel.SMul [f "{s_{c,xx}}"; D (g "v") "x"]; SymModel.SMul [f "{s_{c,xy}}"; D (g "u") "x"];
     SymModel.SMul [f "{s_{c,xy}}"; D (g "v") "y"]; SymModel.SMul [f "{s_{c,yy}}"; D (g "u") "y"]]]%string.
Proof. reflexivity. Qed.

(** eight waves carried by (sin y, 0): mean cos (x - t sin y), variance 1, tensor entries 2 (1 + t^2 cos^2 y), 2 t cos y, 2 *)
Example C114_ensemble_example : smooth_winds 2 [2 * PI; 2 * PI] shear_wind (fun k => match k with O => 1 | _ => 0 end) /\
  (forall p, shear_wind O none p = sin (p 1%nat) /\ shear_wind 1 none p = 0) /\
  carried_ensemble 2 [2 * PI; 2 * PI] shear_wind (-1) 2 8 weight sheared sheared_aspect /\
  (forall t p, statistic 2 8 weight (fun r t p => sheared r O t none p) sheared_aspect 0 t p = cos (p O - t * sin (p 1%nat))) /\
  (forall t p, statistic 2 8 weight (fun r t p => sheared r O t none p) sheared_aspect 1 t p = 1) /\
  (forall t p, statistic 2 8 weight (fun r t p => sheared r O t none p) sheared_aspect 3 t p = 2 * (t * cos (p 1%nat))).
Proof.
  split; [exact shear_smooth|]. split; [exact shear_values|]. split; [exact sheared_carried|]. split; [exact sheared_mean|]. split; [exact sheared_variance|]. reflexivity.
Qed.
(** their statistics, one step of a tenth on 8 x 4 points *)
Example C114_converges_example : exists C g d traj r,
  forecast Req_EM_T Rminus (@rk4 RF (list nat))
    (generated_trend (fun l => l) (fun _ => 0) (fun l => l) (fun a _ => a) ["x"%string; "y"%string] g (fun _ _ _ => d)
      (plane_attr (wind_arrays 2 (g_dx g) (fun k => shear_wind k none))) (pkf_advection Plane))
    [0; 1 / 10] (fun i => statistic 2 8 weight (fun r t p => sheared r O t none p) sheared_aspect (hd O i) 0 (grid_point (g_dx g) (tl i))) SNone = Ok traj /\
  dget Req_EM_T (1 / 10) traj = Some r /\
  row_error (g_dx g) [8%nat; 4%nat] 3 (fun p => 2 * (1 / 10 * cos (p 1%nat))) r <= C * ((1 / 10) ^ 4 + largest (g_dx g) ^ 2).
Proof.
  destruct (C114_converges Plane [2 * PI; 2 * PI] shear_wind _ (-1) 2 8 weight sheared sheared_aspect 0 1 shear_smooth sheared_carried ltac:(lra) ltac:(lra)) as (C & HC).
  set (dx := spacings [2 * PI; 2 * PI] [8%nat; 4%nat]).
  destruct (plane_class (sample dx (shear_wind O none)) (sample dx (shear_wind 1%nat none))) as (g & d & Hd & AC).
  pose proof (dx_ok _ _ _ _ _ _ _ _ _ AC) as Edx. fold dx in Edx.
  change [sample dx (shear_wind O none); sample dx (shear_wind 1%nat none)] with (wind_arrays 2 dx (fun k => shear_wind k none)) in AC. rewrite <- Edx in AC.
  destruct (HC [8%nat; 4%nat] (fun l => l) (fun _ => 0) (fun l => l) (fun a _ => a) g (fun _ _ _ => d) (plane_attr (wind_arrays 2 (g_dx g) (fun k => shear_wind k none))) (1 / 10) [0; 1 / 10]
    (fun i => statistic 2 8 weight (fun r t p => sheared r O t none p) sheared_aspect (hd O i) 0 (grid_point (g_dx g) (tl i))) SNone AC) as (traj & E & H).
  - split; [reflexivity|]. split.
    + intros k t t' H H'. destruct k as [|[|k]]; cbn in H, H'; try discriminate; injection H as <-; injection H' as <-; lra.
    + intros t [<-|[<-|[]]]; lra.
  - intros i js _ _. reflexivity.
  - lra.
  - pose proof PI2_1 as P1. unfold over_axes, step_of. cbn [seq map fold_right List.length nth]. replace (INR 8) with 8 by (cbn; ring). replace (INR 4) with 4 by (cbn; ring).
    assert (S : 1 <= sqrt 2) by (rewrite <- sqrt_1 at 1; apply sqrt_le_1_alt; lra).
    assert (X : 1 / (2 * PI / 8) <= 4). { apply (Rmult_le_reg_r (2 * PI / 8)); [lra|]. unfold Rdiv at 1. rewrite Rmult_assoc, Rinv_l by lra. lra. }
    unfold Rdiv at 4. rewrite Rmult_0_l. lra.
  - discriminate.
  - destruct (H (1 / 10) ltac:(right; left; reflexivity) ltac:(right; left; reflexivity)) as (r & G & Hr).
    exists C, g, d, traj, r. split; [exact E|]. split; [exact G|]. exact (Hr 3%nat ltac:(cbn; lia)).
Qed.
