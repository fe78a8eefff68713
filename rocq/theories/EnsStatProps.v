(** C126: the sample mean and covariance of ensemble_forecast. *)
From Coq Require Import String List Arith Lia Reals Lra Permutation FunctionalExtensionality.
From Verif Require Import PyBase PyBaseFacts Scalars FieldFacts FDReal GridModel ForecastModel ForecastSpec SchemesModel SchemesSpec EnsembleProofs ModelProofs LinearMore LinearProps
  LineModel LineSpec LineProofs LineConv LineCases LineProps TangentSpec TangentProofs TangentLine TangentCases EnsStatSpec EnsStatProofs EnsStatCases.
Import ListNotations.
Open Scope R_scope.

(** an affine dynamics: the mean of the members is the forecast of the mean, the covariance that of the anomalies carried by the linear part *)
Theorem C126_affine {I} s (f L : R -> (I -> R) -> I -> R) ens w sv (states : list (I -> R)) :
  (forall t u c p, f t (@vadd RF I u (@vscale RF I c p)) = @vadd RF I (f t u) (@vscale RF I c (L t p))) ->
  w <> [] -> sv <> SOther -> states <> [] ->
  pool_ens Req_EM_T Rminus (@onestep_fun RF I s) (@pure RF I f) ens ->
  exists d, ens w states sv = Ok d /\ forall t, In t w -> is_saved w sv t ->
    exists vs a zs, dget Req_EM_T t d = Some vs /\
      (exists fc, forecast Req_EM_T Rminus (@onestep_fun RF I s) (@pure RF I f) w (emean states) sv = Ok fc /\ dget Req_EM_T t fc = Some a) /\
      Forall2 (fun st z => exists dz, forecast Req_EM_T Rminus (@onestep_fun RF I s) (@pure RF I L) w (fun i => st i - emean states i) sv = Ok dz /\
        dget Req_EM_T t dz = Some z) states zs /\
      (forall i, emean vs i = a i) /\ (forall i j, ecov vs i j = ecov zs i j).
Proof. intros Ha Hw Hs N He. exact (ens_affine s w sv Hw Hs f L ens states Ha N He). Qed.
Print Assumptions C126_affine.

(** a small ensemble: up to C h^2 the mean is carried by the tangent linear dynamics (so it is the forecast of the mean),
    and the covariance is h^2 times the covariance of the carried perturbations, up to C h^3 *)
Theorem C126_small {I} (D : I -> Prop) (f : R -> (I -> R) -> I -> R) (df : R -> (I -> R) -> (I -> R) -> I -> R) s w sv l (x : I -> R) perts :
  tangent D f df -> w <> [] -> saved_list w sv = Some l -> (2 <= length perts)%nat -> (forall p, In p perts -> exists m, size D m p) ->
  exists C h0, 0 < h0 /\ forall h ens, 0 < h <= h0 -> pool_ens Req_EM_T Rminus (@onestep_fun RF I s) (@pure RF I f) ens ->
    exists d, ens w (map (fun p i => x i + h * p i) perts) sv = Ok d /\
    forall t, In t l -> In t w -> exists vs fc a zs, dget Req_EM_T t d = Some vs /\
      forecast Req_EM_T Rminus (@onestep_fun RF I s) (@pure RF I f) w x sv = Ok fc /\ dget Req_EM_T t fc = Some a /\
      Forall2 (fun p z => exists dz y, forecast Req_EM_T Rminus (@onestep_fun RF (I + I) s) (tangent_trend f df) w (both x p) sv = Ok dz /\
        dget Req_EM_T t dz = Some y /\ z = (fun i => y (inr i))) perts zs /\
      (forall i, D i -> Rabs (emean vs i - (a i + h * emean zs i)) <= C * h ^ 2) /\
      (forall i j, D i -> D j -> Rabs (ecov vs i j / h ^ 2 - ecov zs i j) <= C * h) /\
      ((forall i, D i -> emean perts i = 0) -> forall i, D i -> Rabs (emean vs i - a i) <= C * h ^ 2).
Proof. intros TG Hw Hl N HP. apply (ens_small D f df TG s w sv Hw); auto. intros ->. discriminate. Qed.
Print Assumptions C126_small.

(** the class generated from the Burgers equation, on the points of the line *)
Theorem C126_burgers (L kappa : R) n enum x ord rpow g caches attr s w sv l state perts : 0 < L ->
  line_class L kappa n enum ord g caches attr -> w <> [] -> saved_list w sv = Some l -> (2 <= length perts)%nat ->
  let G := generated_trend enum x ord rpow ["x"%string] g caches attr burgers in
  exists C h0, 0 < h0 /\ forall h ens, 0 < h <= h0 -> pool_ens Req_EM_T Rminus (@onestep_fun RF (list nat) s) G ens ->
    exists d, ens w (map (fun p i => state i + h * p i) perts) sv = Ok d /\
    forall t, In t l -> In t w -> exists vs fc a zs, dget Req_EM_T t d = Some vs /\
      forecast Req_EM_T Rminus (@onestep_fun RF (list nat) s) G w state sv = Ok fc /\ dget Req_EM_T t fc = Some a /\
      Forall2 (fun p z => exists dz y, forecast Req_EM_T Rminus (@onestep_fun RF (list nat + list nat) s)
          (tangent_trend (fun t u => match G t u with Ok r => r | Err _ => u end) (burgers_tangent L kappa n)) w (both state p) sv = Ok dz /\
        dget Req_EM_T t dz = Some y /\ z = (fun i => y (inr i))) perts zs /\
      (forall i, cell n i -> Rabs (emean vs i - (a i + h * emean zs i)) <= C * h ^ 2) /\
      (forall i j, cell n i -> cell n j -> Rabs (ecov vs i j / h ^ 2 - ecov zs i j) <= C * h) /\
      ((forall i, cell n i -> emean perts i = 0) -> forall i, cell n i -> Rabs (emean vs i - a i) <= C * h ^ 2).
Proof.
  intros PL LC Hw Hl N G.
  pose proof (fun t u => C109_burgers_scheme L kappa n enum x ord rpow g caches attr t u PL LC) as HG. cbv zeta in HG. fold G in HG.
  rewrite (gf_pure L kappa n G HG). apply (ens_small (cell n) _ (burgers_tangent L kappa n) (burgers_is_tangent L kappa n PL G HG) s w sv Hw); auto.
  - intros ->. discriminate.
  - intros p _. apply cells_size.
Qed.
Print Assumptions C126_burgers.

(** a linear dynamics on arrays with n entries: with M = make_M(window) and P the covariance of the initial states, the covariance of the
    final states is the transpose of M times P times M *)
Theorem C126_matrix {I} (ieq : forall a b : I, {a = b} + {a <> b}) (ix : nat -> I) n s (L : R -> (I -> R) -> I -> R) ens w M states vs :
  (forall i, exists k, (k < n)%nat /\ ix k = i) -> (forall j k, (j < n)%nat -> (k < n)%nat -> ix j = ix k -> j = k) ->
  (forall t, @linear RF I I (L t)) -> pool_ens Req_EM_T Rminus (@onestep_fun RF I s) (@pure RF I L) ens ->
  w <> [] -> make_M Req_EM_T ens n (fun k j => if ieq (ix k) j then 1 else 0) w = Ok M ->
  states <> [] -> Forall2 (@final RF Req_EM_T I s L w) states vs ->
  (forall i, emean vs i = @lsum RF (map (fun a => emean states (ix a) * nth a M (fun _ => 0) i) (seq 0 n))) /\
  (forall i j, ecov vs i j = @lsum RF (map (fun a => @lsum RF (map (fun b => nth a M (fun _ => 0) i * ecov states (ix a) (ix b) * nth b M (fun _ => 0) j) (seq 0 n))) (seq 0 n))).
Proof.
  intros H1 H2 HL He Hw HM N F.
  assert (E : vs = map (image ix (fun a => nth a M (fun _ => 0)) (seq 0 n)) states).
  { clear N. induction F as [|u v states vs Hf F IH]; [reflexivity|]. cbn. f_equal; [|exact IH]. apply functional_extensionality. intros j.
    rewrite (C09_make_M_is_transpose RF Req_EM_T ieq ix n H1 H2 s L HL ens He w u M v Hw HM Hf j). unfold image. rewrite <- rsum_lsum. reflexivity. }
  rewrite E. split.
  - intros i. rewrite image_mean by exact N. rewrite <- rsum_lsum. reflexivity.
  - intros i j. rewrite image_cov by exact N. rewrite <- rsum_lsum. f_equal. apply map_ext. intros a. rewrite <- rsum_lsum. reflexivity.
Qed.
Print Assumptions C126_matrix.

(** M times P times the transpose of M, the usual propagation of a covariance, is not the covariance of the forecasts *)
Theorem C126_matrix_refuted : exists (L : R -> (bool -> R) -> bool -> R) (w : list R) ens M (states vs : list (bool -> R)),
  (forall t, @linear RF bool bool (L t)) /\ pool_ens Req_EM_T Rminus (@onestep_fun RF bool SEuler) (@pure RF bool L) ens /\
  make_M Req_EM_T ens 2 (fun k j => if Bool.bool_dec (bix k) j then 1 else 0) w = Ok M /\
  Forall2 (@final RF Req_EM_T bool SEuler L w) states vs /\
  ecov vs true true = 2 /\
  @lsum RF (map (fun a => @lsum RF (map (fun b => nth 0 M (fun _ => 0) (bix a) * ecov states (bix a) (bix b) * nth 0 M (fun _ => 0) (bix b)) [0; 1]%nat)) [0; 1]%nat) = 0.
Proof.
  set (ens := ensemble_seq Req_EM_T Rminus (@onestep_fun RF bool SEuler) (@pure RF bool shiftR)).
  assert (He : pool_ens Req_EM_T Rminus (@onestep_fun RF bool SEuler) (@pure RF bool shiftR) ens) by (apply seq_is_pool; intros; apply pure_total).
  destruct (C09_make_M_rows RF Req_EM_T Bool.bool_dec bix 2 SEuler shiftR ens He [0; 1] ltac:(discriminate)) as (M & EM & LM & Rows).
  destruct (Rows 0%nat ltac:(lia)) as (r & Er & Fr). pose proof (final_det SEuler shiftR _ _ _ _ Fr (euler_final shiftR _)) as Hr.
  exists shiftR, [0; 1], ens, M, [(fun b : bool => if b then 0 else 1); (fun b : bool => if b then 0 else -1)].
  exists (map (fun u i => u i + (1 - 0) * shiftR 0 u i) [(fun b : bool => if b then 0 else 1); (fun b : bool => if b then 0 else -1)]).
  split; [exact shiftR_linear|]. split; [exact He|]. split; [exact EM|]. split; [repeat constructor; apply euler_final|].
  split; [unfold ecov, emean, total, shiftR; cbn; field|].
  rewrite (nth_error_nth M 0 (fun _ : bool => 0) Er), Hr. unfold ecov, emean, total, shiftR, basis. cbn. field.
Qed.
Print Assumptions C126_matrix_refuted.

(** for a dynamics that is not affine the mean of the members is not the forecast of the mean: du/dt = u^2 from -1 and 1 *)
Theorem C126_mean_refuted : exists (f : R -> (unit -> R) -> unit -> R) (states : list (unit -> R)) ens d vs fc a,
  pool_ens Req_EM_T Rminus (@onestep_fun RF unit SEuler) (@pure RF unit f) ens /\
  ens [0; 1] states SNone = Ok d /\ dget Req_EM_T 1 d = Some vs /\
  forecast Req_EM_T Rminus (@onestep_fun RF unit SEuler) (@pure RF unit f) [0; 1] (emean states) SNone = Ok fc /\ dget Req_EM_T 1 fc = Some a /\
  emean vs tt = 1 /\ a tt = 0.
Proof.
  set (f := fun (_ : R) (u : unit -> R) i => u i ^ 2).
  set (ens := ensemble_seq Req_EM_T Rminus (@onestep_fun RF unit SEuler) (@pure RF unit f)).
  assert (He : pool_ens Req_EM_T Rminus (@onestep_fun RF unit SEuler) (@pure RF unit f) ens) by (apply seq_is_pool; intros; apply pure_total).
  set (states := [(fun _ : unit => -1); (fun _ => 1)]).
  destruct (ens_values SEuler [0; 1] SNone ltac:(discriminate) ltac:(discriminate) f ens states He) as (d & Ed & G).
  destruct (G 1 ltac:(cbn; auto) ltac:(cbn; auto)) as (vs & Gv & F2).
  inversion F2 as [|u v us vs1 (d1 & E1 & G1) F2']; subst. inversion F2' as [|u' v' us' vs2 (d2 & E2 & G2) F2'']; subst. inversion F2''; subst.
  destruct (one_step (@onestep_fun RF unit SEuler) (@pure RF unit f) (fun _ => -1) _ eq_refl) as (b1 & X1 & Y1).
  destruct (one_step (@onestep_fun RF unit SEuler) (@pure RF unit f) (fun _ => 1) _ eq_refl) as (b2 & X2 & Y2).
  destruct (one_step (@onestep_fun RF unit SEuler) (@pure RF unit f) (emean states) _ eq_refl) as (b3 & X3 & Y3).
  assert (Z1 := eq_trans (eq_sym X1) E1). injection Z1 as <-. assert (Z2 := eq_trans (eq_sym X2) E2). injection Z2 as <-.
  rewrite Y1 in G1. injection G1 as <-. rewrite Y2 in G2. injection G2 as <-.
  eexists f, states, ens, d, _, b3, _. split; [exact He|]. split; [exact Ed|]. split; [exact Gv|]. split; [exact X3|]. split; [exact Y3|].
  split; [unfold emean, total, f; cbn; field|unfold emean, total, states, f; cbn; field].
Qed.
Print Assumptions C126_mean_refuted.

(** du/dt = u^2 from 1 with perturbations -1, 0 and 1: the hypotheses of C126_small hold and the perturbations have mean 0 *)
Example C126_small_example : exists C h0, 0 < h0 /\ forall h, 0 < h <= h0 ->
  exists d vs fc a, ensemble_seq Req_EM_T Rminus (@onestep_fun RF unit SRk4) (@pure RF unit (fun _ u i => u i ^ 2)) [0; 1; 2]
      [(fun _ => 1 + h * -1); (fun _ => 1 + h * 0); (fun _ => 1 + h * 1)] SNone = Ok d /\ dget Req_EM_T 2 d = Some vs /\
    forecast Req_EM_T Rminus (@onestep_fun RF unit SRk4) (@pure RF unit (fun _ u i => u i ^ 2)) [0; 1; 2] (fun _ => 1) SNone = Ok fc /\ dget Req_EM_T 2 fc = Some a /\
    Rabs (emean vs tt - a tt) <= C * h ^ 2.
Proof.
  destruct (C126_small (fun _ => True) (fun _ u i => u i ^ 2) (fun _ u p i => 2 * u i * p i) SRk4 [0; 1; 2] SNone [0; 1; 2] (fun _ : unit => 1)
    [(fun _ => -1); (fun _ => 0); (fun _ => 1)] square_tangent ltac:(discriminate) eq_refl ltac:(cbn; lia)) as (C & h0 & H0 & H).
  { intros p [<-|[<-|[<-|[]]]]; exists 1; intros i _; unfold Rabs; destruct Rcase_abs; lra. }
  exists C, h0. split; [exact H0|]. intros h Hh.
  destruct (H h (ensemble_seq Req_EM_T Rminus (@onestep_fun RF unit SRk4) (@pure RF unit (fun _ u i => u i ^ 2))) Hh ltac:(apply seq_is_pool; intros; apply pure_total))
    as (d & Ed & V).
  destruct (V 2 ltac:(cbn; auto) ltac:(cbn; auto)) as (vs & fc & a & zs & G & Ef & Ga & _ & _ & _ & Z). exists d, vs, fc, a.
  split; [exact Ed|]. split; [exact G|]. split; [exact Ef|]. split; [exact Ga|]. apply Z; [|exact Logic.I]. intros i _. unfold emean, total. cbn. field.
Qed.
(** du/dt = 2 u + 3: the hypotheses of C126_affine hold; the covariance of two members after one step is 9 times the initial one *)
Example C126_affine_example : exists d vs, ensemble_seq Req_EM_T Rminus (@onestep_fun RF unit SEuler) (@pure RF unit (fun _ u i => 2 * u i + 3)) [0; 1]
    [(fun _ => 1); (fun _ => 5)] SNone = Ok d /\ dget Req_EM_T 1 d = Some vs /\ emean vs tt = 12 /\ ecov vs tt tt = 9 * 8.
Proof.
  destruct (C126_affine SEuler (fun _ (u : unit -> R) i => 2 * u i + 3) (fun _ u i => 2 * u i)
    (ensemble_seq Req_EM_T Rminus (@onestep_fun RF unit SEuler) (@pure RF unit (fun _ u i => 2 * u i + 3))) [0; 1] SNone [(fun _ => 1); (fun _ => 5)])
    as (d & Ed & V); try discriminate.
  - intros t u c p. apply functional_extensionality. intros i. unfold vadd, vscale. cbn. ring.
  - apply seq_is_pool. intros; apply pure_total.
  - destruct (V 1 ltac:(cbn; auto) ltac:(cbn; auto)) as (vs & a & zs & G & (fc & Ef & Ga) & F & M & Cv). exists d, vs. split; [exact Ed|]. split; [exact G|].
    destruct (one_step (@onestep_fun RF unit SEuler) (@pure RF unit (fun _ u i => 2 * u i + 3)) (emean [(fun _ : unit => 1); (fun _ => 5)]) _ eq_refl) as (b & X & Y).
    assert (Z := eq_trans (eq_sym X) Ef). injection Z as <-. rewrite Y in Ga. injection Ga as <-.
    inversion F as [|u v us vs1 (d1 & E1 & G1) F2']; subst. inversion F2' as [|u' v' us' vs2 (d2 & E2 & G2) F2'']; subst. inversion F2''; subst.
    destruct (one_step (@onestep_fun RF unit SEuler) (@pure RF unit (fun _ u i => 2 * u i)) (fun i => 1 - emean [(fun _ : unit => 1); (fun _ => 5)] i) _ eq_refl) as (b1 & X1 & Y1).
    destruct (one_step (@onestep_fun RF unit SEuler) (@pure RF unit (fun _ u i => 2 * u i)) (fun i => 5 - emean [(fun _ : unit => 1); (fun _ => 5)] i) _ eq_refl) as (b2 & X2 & Y2).
    assert (Z1 := eq_trans (eq_sym X1) E1). injection Z1 as <-. assert (Z2 := eq_trans (eq_sym X2) E2). injection Z2 as <-.
    rewrite Y1 in G1. injection G1 as <-. rewrite Y2 in G2. injection G2 as <-.
    rewrite M, Cv. split; [unfold emean, total; cbn; field|unfold ecov, emean, total; cbn; field].
Qed.
