(** C123: forecast_tl of a dynamics that is not linear tends to the forecast of its tangent linear dynamics as h tends to 0. *)
From Coq Require Import String List Arith Lia Reals Lra Permutation.
From Verif Require Import PyBase PyBaseFacts Scalars FieldFacts FDReal GridModel ForecastModel ForecastSpec SchemesModel SchemesSpec EnsembleProofs ModelProofs
  LineModel LineSpec LineProofs LineConv LineCases LineProps TangentSpec TangentProofs TangentLine TangentCases LinearMore.
Import ListNotations.
Open Scope R_scope.

(** for every dynamics, scheme with one step, window, state and perturbations: the error is at most C h *)
Theorem C123_tangent {I} (D : I -> Prop) (f : R -> (I -> R) -> I -> R) (df : R -> (I -> R) -> (I -> R) -> I -> R) s w sv l (state : I -> R) perts :
  tangent D f df -> w <> [] -> saved_list w sv = Some l -> NoDup l -> (forall p, In p perts -> exists m, size D m p) ->
  exists C h0, 0 < h0 /\ forall h ens, 0 < h <= h0 ->
    pool_ens Req_EM_T Rminus (@onestep_fun RF I s) (@pure RF I f) ens ->
    exists fc tl,
      forecast_tl Req_EM_T Rminus (@onestep_fun RF I s) (@pure RF I f)
        (fun st p => @vadd RF I st (@vscale RF I h p)) (fun a b => @vdiv RF I (@vsub RF I a b) h) ens w state perts sv = Ok (fc, tl) /\
      forecast Req_EM_T Rminus (@onestep_fun RF I s) (@pure RF I f) w state sv = Ok fc /\ dkeys tl = l /\
      (forall t, In t l -> In t w -> exists vs, dget Req_EM_T t tl = Some vs /\
         Forall2 (fun p v => exists d z, forecast Req_EM_T Rminus (@onestep_fun RF (I + I) s) (tangent_trend f df) w (both state p) sv = Ok d /\
           dget Req_EM_T t d = Some z /\ apart D (C * h) v (fun i => z (inr i))) perts vs) /\
      (forall t, In t l -> ~ In t w -> dget Req_EM_T t tl = Some []).
Proof.
  intros TG Hw Hl ND HP. apply (tl_converges D f df TG s w sv); auto. intros ->. discriminate.
Qed.
Print Assumptions C123_tangent.

(** the class generated from the Burgers equation: the limit is the scheme linearised about the trajectory *)
Theorem C123_burgers (L kappa : R) n enum x ord rpow g caches attr s w sv l state perts : 0 < L ->
  line_class L kappa n enum ord g caches attr -> w <> [] -> saved_list w sv = Some l -> NoDup l ->
  let G := generated_trend enum x ord rpow ["x"%string] g caches attr burgers in
  exists C h0, 0 < h0 /\ forall h ens, 0 < h <= h0 ->
    pool_ens Req_EM_T Rminus (@onestep_fun RF (list nat) s) G ens ->
    exists fc tl,
      forecast_tl Req_EM_T Rminus (@onestep_fun RF (list nat) s) G
        (fun st p => @vadd RF (list nat) st (@vscale RF (list nat) h p)) (fun a b => @vdiv RF (list nat) (@vsub RF (list nat) a b) h) ens w state perts sv = Ok (fc, tl) /\
      forecast Req_EM_T Rminus (@onestep_fun RF (list nat) s) G w state sv = Ok fc /\ dkeys tl = l /\
      (forall t, In t l -> In t w -> exists vs, dget Req_EM_T t tl = Some vs /\
         Forall2 (fun p v => exists d z,
           forecast Req_EM_T Rminus (@onestep_fun RF (list nat + list nat) s)
             (tangent_trend (fun t u => match G t u with Ok r => r | Err _ => u end) (burgers_tangent L kappa n)) w (both state p) sv = Ok d /\
           dget Req_EM_T t d = Some z /\ apart (cell n) (C * h) v (fun i => z (inr i))) perts vs) /\
      (forall t, In t l -> ~ In t w -> dget Req_EM_T t tl = Some []).
Proof.
  intros PL LC Hw Hl ND G. apply (burgers_tl L kappa n PL G); auto.
  intros t u. exact (C109_burgers_scheme L kappa n enum x ord rpow g caches attr t u PL LC).
Qed.
Print Assumptions C123_burgers.

(** what forecast_tl returns is not the tangent linear forecast when the dynamics is not linear, whatever h: the error is h *)
Theorem C123_exact_refuted : exists (f : R -> (unit -> R) -> unit -> R) (df : R -> (unit -> R) -> (unit -> R) -> unit -> R) (state p : unit -> R),
  tangent (fun _ => True) f df /\
  forall h ens, 0 < h -> pool_ens Req_EM_T Rminus (@onestep_fun RF unit SEuler) (@pure RF unit f) ens ->
    exists fc tl v d z,
      forecast_tl Req_EM_T Rminus (@onestep_fun RF unit SEuler) (@pure RF unit f)
        (fun st p => @vadd RF unit st (@vscale RF unit h p)) (fun a b => @vdiv RF unit (@vsub RF unit a b) h) ens [0; 1] state [p] SNone = Ok (fc, tl) /\
      dget Req_EM_T 1 tl = Some [v] /\
      forecast Req_EM_T Rminus (@onestep_fun RF (unit + unit) SEuler) (tangent_trend f df) [0; 1] (both state p) SNone = Ok d /\
      dget Req_EM_T 1 d = Some z /\ v tt - z (inr tt) = h.
Proof.
  exists (fun _ u i => u i ^ 2), (fun _ u p i => 2 * u i * p i), (fun _ => 0), (fun _ => 1). split; [exact square_tangent|].
  intros h ens Hh Hens.
  assert (ND : NoDup [0; 1]) by (repeat constructor; cbn; [intros [Q|[]]; lra|tauto]).
  destruct (forecast_tl_values SEuler (fun _ u i => u i ^ 2) h ens [0; 1] (fun _ : unit => 0) [fun _ => 1] SNone [0; 1] Hens ltac:(discriminate) eq_refl ND)
    as (fc & tl & E & Efc & K & V & _).
  destruct (V 1 ltac:(cbn; auto) ltac:(cbn; auto)) as (vs & a & Gv & Ga & F2).
  inversion F2 as [|p v ps vs' (d & b & Ed & Gb & Ev) F2']; subst. inversion F2'; subst.
  destruct (one_step (@onestep_fun RF unit SEuler) (@pure RF unit (fun _ u i => u i ^ 2)) (fun _ => 0) _ eq_refl) as (d1 & E1 & G1).
  destruct (one_step (@onestep_fun RF unit SEuler) (@pure RF unit (fun _ u i => u i ^ 2)) (@tl_pert RF unit h (fun _ => 0) (fun _ => 1)) _ eq_refl) as (d2 & E2 & G2).
  destruct (one_step (@onestep_fun RF (unit + unit) SEuler) (tangent_trend (fun _ u i => u i ^ 2) (fun _ u p i => 2 * u i * p i)) (both (fun _ => 0) (fun _ => 1)) _ eq_refl)
    as (d3 & E3 & G3).
  assert (X1 := eq_trans (eq_sym E1) Efc). injection X1 as <-. assert (X2 := eq_trans (eq_sym E2) Ed). injection X2 as <-. rewrite G1 in Ga. injection Ga as <-. rewrite G2 in Gb. injection Gb as <-.
  eexists _, tl, _, d3, _. split; [exact E|]. split; [exact Gv|]. split; [exact E3|]. split; [exact G3|].
  change ((0 + h * 1 + (1 - 0) * (0 + h * 1) ^ 2 - (0 + (1 - 0) * 0 ^ 2)) / h - (1 + (1 - 0) * (2 * 0 * 1)) = h). field. lra.
Qed.
Print Assumptions C123_exact_refuted.

(** du/dt = u^2 from 1, perturbations 1 and -3, over three steps: the hypotheses of C123_tangent hold *)
Example C123_tangent_example : exists C h0, 0 < h0 /\ forall h, 0 < h <= h0 ->
  exists fc tl vs, forecast_tl Req_EM_T Rminus (@onestep_fun RF unit SRk4) (@pure RF unit (fun _ u i => u i ^ 2))
    (fun st p => @vadd RF unit st (@vscale RF unit h p)) (fun a b => @vdiv RF unit (@vsub RF unit a b) h)
    (fun w sts sv => ensemble_seq Req_EM_T Rminus (@onestep_fun RF unit SRk4) (@pure RF unit (fun _ u i => u i ^ 2)) w sts sv)
    [0; 1/10; 2/10; 3/10] (fun _ => 1) [fun _ => 1; fun _ => -3] (SIter [3/10]) = Ok (fc, tl) /\
    dget Req_EM_T (3/10) tl = Some vs /\ length vs = 2%nat /\
    Forall2 (fun p v => exists d z, forecast Req_EM_T Rminus (@onestep_fun RF (unit + unit) SRk4)
      (tangent_trend (fun _ u i => u i ^ 2) (fun _ u p i => 2 * u i * p i)) [0; 1/10; 2/10; 3/10] (both (fun _ => 1) p) (SIter [3/10]) = Ok d /\
      dget Req_EM_T (3/10) d = Some z /\ Rabs (v tt - z (inr tt)) <= C * h) [fun _ => 1; fun _ => -3] vs.
Proof.
  destruct (C123_tangent (fun _ : unit => True) (fun _ u i => u i ^ 2) (fun _ u p i => 2 * u i * p i) SRk4 [0; 1/10; 2/10; 3/10] (SIter [3/10]) [3/10]
    (fun _ => 1) [fun _ => 1; fun _ => -3] square_tangent ltac:(discriminate) eq_refl ltac:(repeat constructor; cbn; tauto)) as (C & h0 & H0 & H).
  { intros p Hp. exists (Rabs (p tt)). intros [] _. lra. }
  exists C, h0. split; [exact H0|]. intros h Hh. destruct (H h _ Hh (seq_is_pool _ _ _ _ (pure_total RF SRk4 _))) as (fc & tl & E & _ & _ & V & _).
  destruct (V (3/10) (or_introl eq_refl) ltac:(cbn; auto)) as (vs & Gv & F2).
  exists fc, tl, vs. split; [exact E|]. split; [exact Gv|]. split; [inversion F2 as [|? ? ? ? _ F3]; subst; inversion F3 as [|? ? ? ? _ F4]; subst; inversion F4; subst; reflexivity|].
  clear - F2. induction F2 as [|p v ps vs (d & z & Ed & Gz & A) F2 IH]; constructor; [|exact IH]. exists d, z. split; [exact Ed|]. split; [exact Gz|]. exact (A tt Logic.I).
Qed.
(** a generated Burgers class on eight points, any state and perturbations, two steps of rk4 *)
Example C123_burgers_example state p q : exists g d C h0, @grid_init RF ["x"%string] (Some [8%nat]) (Some [2]) = Ok g /\ 0 < h0 /\
  let G := generated_trend (fun l => l) (fun _ => 0) (fun l => l) (fun a _ => a) ["x"%string] g (fun _ _ _ => d) (fun _ => Ok (fun _ => 1)) burgers in
  forall h, 0 < h <= h0 -> exists fc tl v1 v2 d1 d2 z1 z2,
    forecast_tl Req_EM_T Rminus (@onestep_fun RF (list nat) SRk4) G
      (fun st p => @vadd RF (list nat) st (@vscale RF (list nat) h p)) (fun a b => @vdiv RF (list nat) (@vsub RF (list nat) a b) h)
      (ensemble_seq Req_EM_T Rminus (@onestep_fun RF (list nat) SRk4) G) [0; 1/100; 1/50] state [p; q] (SFloat (1/50)) = Ok (fc, tl) /\
    dget Req_EM_T (1/50) tl = Some [v1; v2] /\
    forecast Req_EM_T Rminus (@onestep_fun RF (list nat + list nat) SRk4)
      (tangent_trend (fun t u => match G t u with Ok r => r | Err _ => u end) (burgers_tangent 2 1 8)) [0; 1/100; 1/50] (both state p) (SFloat (1/50)) = Ok d1 /\
    forecast Req_EM_T Rminus (@onestep_fun RF (list nat + list nat) SRk4)
      (tangent_trend (fun t u => match G t u with Ok r => r | Err _ => u end) (burgers_tangent 2 1 8)) [0; 1/100; 1/50] (both state q) (SFloat (1/50)) = Ok d2 /\
    dget Req_EM_T (1/50) d1 = Some z1 /\ dget Req_EM_T (1/50) d2 = Some z2 /\
    forall j, (j < 8)%nat -> Rabs (v1 [O; j] - z1 (inr [O; j])) <= C * h /\ Rabs (v2 [O; j] - z2 (inr [O; j])) <= C * h.
Proof.
  destruct (class_exists 2 1 8 ltac:(lia)) as (g & d & Hd & LC). exists g, d.
  destruct (C123_burgers 2 1 8 (fun l => l) (fun _ => 0) (fun l => l) (fun a _ => a) g (fun _ _ _ => d) (fun _ => Ok (fun _ => 1)) SRk4
    [0; 1/100; 1/50] (SFloat (1/50)) [1/50] state [p; q] ltac:(lra) LC ltac:(discriminate) eq_refl ltac:(repeat constructor; cbn; tauto)) as (C & h0 & H0 & H).
  exists C, h0. split; [exact (lc_grid _ _ _ _ _ _ _ _ LC)|]. split; [exact H0|]. intros G h Hh.
  destruct (H h (ensemble_seq Req_EM_T Rminus (@onestep_fun RF (list nat) SRk4) G) Hh) as (fc & tl & E & _ & _ & V & _).
  { apply seq_is_pool. intros t u dt.
    assert (T : forall t u, exists r, G t u = Ok r).
    { intros t' u'. destruct (C109_burgers_scheme 2 1 8 (fun l => l) (fun _ => 0) (fun l => l) (fun a _ => a) g (fun _ _ _ => d) (fun _ => Ok (fun _ => 1)) t' u' ltac:(lra) LC) as (r & Er & _).
      exists r. exact Er. }
    unfold onestep_fun, rk4. repeat (match goal with |- context [G ?a ?b] => destruct (T a b) as (? & ->); cbn [bind] end). eexists. reflexivity. }
  destruct (V (1/50) (or_introl eq_refl) ltac:(cbn; auto)) as (vs & Gv & F2).
  inversion F2 as [|a1 v1 b1 c1 (d1 & z1 & Ed1 & Gz1 & A1) F3]; subst. inversion F3 as [|a2 v2 b2 c2 (d2 & z2 & Ed2 & Gz2 & A2) F4]; subst. inversion F4; subst.
  exists fc, tl, v1, v2, d1, d2, z1, z2. split; [exact E|]. split; [exact Gv|]. split; [exact Ed1|]. split; [exact Ed2|]. split; [exact Gz1|]. split; [exact Gz2|].
  intros j Hj. split; [apply A1|apply A2]; exists j; auto.
Qed.
