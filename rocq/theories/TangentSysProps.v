(** C124: forecast_tl of a generated class tends to the forecast of the class generated from the equations with their tangent linear equations. *)
From Coq Require Import String List Arith ZArith QArith Lia Reals Lra Permutation.
From Verif Require Import PyBase PyBaseFacts Scalars FieldFacts SymModel PDEModel CodegenModel CodegenSpec FDReal GridModel GridSpec GridMore ConsistSpec ConsistWaves
  ForecastModel ForecastSpec SchemesModel SchemesSpec EnsembleProofs ModelProofs
  LineModel LineSpec LineProofs LineCases TangentSpec TangentProofs TangentSysSpec TangentSysProofs TangentSysMain TangentSysClass TangentSysCases LinearMore.
Import ListNotations.
Close Scope Q_scope.
Open Scope R_scope.

(** every system of polynomial right-hand sides, in any number of fields and dimensions of space *)
Theorem C124_tangent_class coords (lengths : list R) shape (g : @grid RF) rpow kappa cst enum enum' x x' eqs teqs (S S' : pdes) ord ord'
    caches caches' attr attr' pert s w sv l state perts :
  NoDup coords -> List.length lengths = List.length coords -> (forall L, In L lengths -> 0 < L) ->
  @grid_init RF coords (Some shape) (Some lengths) = Ok g -> (forall a n, rpow a (INR n) = a ^ n) ->
  generated_class coords shape kappa cst enum eqs S ord caches attr ->
  generated_class coords shape kappa cst enum' (eqs ++ teqs) S' ord' caches' attr' ->
  tangent_equations rpow pert eqs teqs -> (forall q, In q eqs -> polynomial (snd q)) ->
  (forall f, In f (evolving eqs) -> ~ occurs eqs (pert f)) ->
  w <> [] -> saved_list w sv = Some l -> NoDup l ->
  let n := List.length eqs in
  let G := generated_trend enum x ord rpow coords g caches attr eqs in
  let G' := generated_trend enum' x' ord' rpow coords g caches' attr' (eqs ++ teqs) in
  exists C h0, 0 < h0 /\ forall h ens, 0 < h <= h0 ->
    pool_ens Req_EM_T Rminus (@onestep_fun RF (list nat) s) G ens ->
    exists fc tl,
      forecast_tl Req_EM_T Rminus (@onestep_fun RF (list nat) s) G
        (fun st p => @vadd RF (list nat) st (@vscale RF (list nat) h p)) (fun a b => @vdiv RF (list nat) (@vsub RF (list nat) a b) h) ens w state perts sv = Ok (fc, tl) /\
      forecast Req_EM_T Rminus (@onestep_fun RF (list nat) s) G w state sv = Ok fc /\ dkeys tl = l /\
      (forall t, In t l -> In t w -> exists vs, dget Req_EM_T t tl = Some vs /\
         Forall2 (fun p v => exists d z,
           forecast Req_EM_T Rminus (@onestep_fun RF (list nat) s) G' w (stacked n state p) sv = Ok d /\ dget Req_EM_T t d = Some z /\
           forall k js, (k < n)%nat -> in_range shape js -> Rabs (v (k :: js) - z ((n + k)%nat :: js)) <= C * h) perts vs) /\
      (forall t, In t l -> ~ In t w -> dget Req_EM_T t tl = Some []).
Proof.
  intros ND LEN POS Hg POW GC GC' TE PO NEW Hw Hl NDl n G G'.
  exact (system_tl coords lengths shape g rpow kappa cst ND LEN POS Hg POW enum enum' x x' eqs teqs S S' ord ord' caches caches' attr attr' pert GC GC' TE PO NEW
    s w sv l state perts Hw Hl NDl).
Qed.
Print Assumptions C124_tangent_class.

(** Burgers: the equation of the perturbation p is D_t p = - p D_x u - u D_x p + kappa D_x^2 p *)
Theorem C124_burgers (L kappa : R) n enum enum' x x' ord ord' rpow g caches caches' attr attr' s w sv l state perts : 0 < L ->
  (forall a n, rpow a (INR n) = a ^ n) ->
  line_class L kappa n enum ord g caches attr -> line_class L kappa n enum' ord' g caches' attr' ->
  w <> [] -> saved_list w sv = Some l -> NoDup l ->
  let G := generated_trend enum x ord rpow ["x"%string] g caches attr burgers in
  let G' := generated_trend enum' x' ord' rpow ["x"%string] g caches' attr' (burgers ++ burgers_pert) in
  exists C h0, 0 < h0 /\ forall h ens, 0 < h <= h0 ->
    pool_ens Req_EM_T Rminus (@onestep_fun RF (list nat) s) G ens ->
    exists fc tl,
      forecast_tl Req_EM_T Rminus (@onestep_fun RF (list nat) s) G
        (fun st p => @vadd RF (list nat) st (@vscale RF (list nat) h p)) (fun a b => @vdiv RF (list nat) (@vsub RF (list nat) a b) h) ens w state perts sv = Ok (fc, tl) /\
      forecast Req_EM_T Rminus (@onestep_fun RF (list nat) s) G w state sv = Ok fc /\ dkeys tl = l /\
      (forall t, In t l -> In t w -> exists vs, dget Req_EM_T t tl = Some vs /\
         Forall2 (fun p v => exists d z,
           forecast Req_EM_T Rminus (@onestep_fun RF (list nat) s) G' w (stacked 1 state p) sv = Ok d /\ dget Req_EM_T t d = Some z /\
           forall j, (j < n)%nat -> Rabs (v [O; j] - z [1%nat; j]) <= C * h) perts vs) /\
      (forall t, In t l -> ~ In t w -> dget Req_EM_T t tl = Some []).
Proof.
  intros PL POW LC LC' Hw Hl NDl G G'.
  destruct (C124_tangent_class ["x"%string] [L] [n] g rpow (fun _ => kappa) (fun _ _ => 0) enum enum' x x' burgers burgers_pert burgers_S burgers_both_S ord ord'
    caches caches' attr attr' burgers_name s w sv l state perts) as (C & h0 & H0 & H).
  - repeat constructor. intros [].
  - reflexivity.
  - intros ? [<-|[]]. exact PL.
  - exact (lc_grid _ _ _ _ _ _ _ _ LC).
  - exact POW.
  - exact (burgers_generated L kappa n _ enum ord g caches attr LC).
  - exact (burgers_both_generated L kappa n _ enum' ord' g caches' attr' LC').
  - apply burgers_tangents.
  - exact burgers_polynomial.
  - exact burgers_new.
  - exact Hw.
  - exact Hl.
  - exact NDl.
  - exists C, h0. split; [exact H0|]. intros h ens Hh Hens. destruct (H h ens Hh Hens) as (fc & tl & E & Ef & K & V & N).
    exists fc, tl. split; [exact E|]. split; [exact Ef|]. split; [exact K|]. split; [|exact N].
    intros t Ht Hin. destruct (V t Ht Hin) as (vs & Gv & F2). exists vs. split; [exact Gv|].
    clear - F2. induction F2 as [|p v ps vs (d & z & Ed & Gz & A) F2 IH]; constructor; [|exact IH].
    exists d, z. split; [exact Ed|]. split; [exact Gz|]. intros j Hj. apply (A O [j]); [cbn; lia|]. constructor; [exact Hj|constructor].
Qed.
Print Assumptions C124_burgers.

(** the hypotheses hold for a reaction of two fields with a source, D_t u = u^2 v - u + kappa D_x^2 u, D_t v = F(x) - u^2 v, on six points *)
Example C124_reaction_example state p q F : exists g d C h0,
  @grid_init RF ["x"%string] (Some [6%nat]) (Some [3]) = Ok g /\ init_index ["x"%string] [6%nat] = Ok d /\ 0 < h0 /\
  let G := generated_trend (fun l => l) (fun _ => 0) (fun l => l) natpow ["x"%string] g (fun _ _ _ => d) (reaction_attr (1/2) F) reaction in
  let G' := generated_trend (fun l => l) (fun _ => 0) (fun l => l) natpow ["x"%string] g (fun _ _ _ => d) (reaction_attr (1/2) F) (reaction ++ reaction_pert) in
  forall h ens, 0 < h <= h0 -> pool_ens Req_EM_T Rminus (@onestep_fun RF (list nat) SRk2) G ens ->
  exists fc tl v1 v2 d1 d2 z1 z2,
    forecast_tl Req_EM_T Rminus (@onestep_fun RF (list nat) SRk2) G
      (fun st p => @vadd RF (list nat) st (@vscale RF (list nat) h p)) (fun a b => @vdiv RF (list nat) (@vsub RF (list nat) a b) h)
      ens [0; 1/100; 1/50] state [p; q] (SFloat (1/50)) = Ok (fc, tl) /\
    dget Req_EM_T (1/50) tl = Some [v1; v2] /\
    forecast Req_EM_T Rminus (@onestep_fun RF (list nat) SRk2) G' [0; 1/100; 1/50] (stacked 2 state p) (SFloat (1/50)) = Ok d1 /\
    forecast Req_EM_T Rminus (@onestep_fun RF (list nat) SRk2) G' [0; 1/100; 1/50] (stacked 2 state q) (SFloat (1/50)) = Ok d2 /\
    dget Req_EM_T (1/50) d1 = Some z1 /\ dget Req_EM_T (1/50) d2 = Some z2 /\
    forall j, (j < 6)%nat ->
      Rabs (v1 [0%nat; j] - z1 [2%nat; j]) <= C * h /\ Rabs (v1 [1%nat; j] - z1 [3%nat; j]) <= C * h /\
      Rabs (v2 [0%nat; j] - z2 [2%nat; j]) <= C * h /\ Rabs (v2 [1%nat; j] - z2 [3%nat; j]) <= C * h.
Proof.
  destruct (@grid_init_ok RF ["x"%string] (Some [6%nat]) (Some [3]) ltac:(repeat constructor; intros []) eq_refl eq_refl) as (g & Hg & _).
  { intros m [<-|[]]. lia. }
  destruct (init_index ["x"%string] [6%nat]) as [d|] eqn:Hd; [|discriminate].
  assert (Hh : after_history ["x"%string] [6%nat] [] d) by (exists d; split; [exact Hd|reflexivity]).
  destruct (C124_tangent_class ["x"%string] [3] [6%nat] g natpow (fun _ => 1/2) (fun _ => F) (fun l => l) (fun l => l) (fun _ => 0) (fun _ => 0) reaction reaction_pert
    (run_system reaction) (run_system (reaction ++ reaction_pert)) (fun l => l) (fun l => l) (fun _ _ _ => d) (fun _ _ _ => d) (reaction_attr (1/2) F) (reaction_attr (1/2) F)
    reaction_name SRk2 [0; 1/100; 1/50] (SFloat (1/50)) [1/50] state [p; q]) as (C & h0 & H0 & H).
  - repeat constructor. intros [].
  - reflexivity.
  - intros ? [<-|[]]. lra.
  - exact Hg.
  - exact natpow_nat.
  - exact (reaction_generated 6 (1/2) F d Hh).
  - exact (reaction_both_generated 6 (1/2) F d Hh).
  - exact (reaction_tangents natpow natpow_nat).
  - exact reaction_polynomial.
  - exact reaction_new.
  - discriminate.
  - reflexivity.
  - repeat constructor. intros [].
  - exists g, d, C, h0. split; [exact Hg|]. split; [reflexivity|]. split; [exact H0|]. intros G G' h ens Hr Hens.
    destruct (H h ens Hr Hens) as (fc & tl & E & _ & _ & V & _).
    destruct (V (1/50) (or_introl eq_refl) ltac:(cbn; auto)) as (vs & Gv & F2).
    inversion F2 as [|? v1 ? vs1 (d1 & z1 & E1 & G1 & A1) F3]; subst. inversion F3 as [|? v2 ? vs2 (d2 & z2 & E2 & G2 & A2) F4]; subst. inversion F4; subst.
    exists fc, tl, v1, v2, d1, d2, z1, z2. repeat (split; [assumption|]). intros j Hj.
    assert (R : in_range [6%nat] [j]) by (constructor; [exact Hj|constructor]).
    split; [apply (A1 0%nat [j]); auto; cbn; lia|]. split; [apply (A1 1%nat [j]); auto; cbn; lia|]. split; [apply (A2 0%nat [j]); auto; cbn; lia|]. apply (A2 1%nat [j]); auto; cbn; lia.
Qed.
(** Burgers on eight points *)
Example C124_burgers_example : exists g d, @grid_init RF ["x"%string] (Some [8%nat]) (Some [2]) = Ok g /\
  line_class 2 1 8 (fun l => l) (fun l => l) g (fun _ _ _ => d) (fun _ => Ok (fun _ => 1)) /\
  (forall a n, natpow a (INR n) = a ^ n) /\ saved_list [0; 1/100; 1/50] (SFloat (1/50)) = Some [1/50].
Proof.
  destruct (class_exists 2 1 8 ltac:(lia)) as (g & d & Hd & LC). exists g, d. split; [exact (lc_grid _ _ _ _ _ _ _ _ LC)|]. split; [exact LC|]. split; [exact natpow_nat|reflexivity].
Qed.
