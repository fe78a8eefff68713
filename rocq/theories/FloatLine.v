(** Proofs of C122: the generated diffusion model in double precision. *)
From Coq Require Import List ZArith Bool Reals Lra Lia Arith String  FunctionalExtensionality.
From Flocq Require Import Core.Core IEEE754.BinarySingleNaN.
From Verif Require Import PyBase PyBaseFacts Scalars FieldFacts FDReal SymModel FDExprModel GridModel GridSpec ForecastModel SchemesModel SchemesSpec ForecastSpec ForecastProofs ForecastProps
  LineModel LineSpec LineProofs LineConv LineProps
  FloatModel FloatSpec FloatProofs FloatSchemeModel FloatSchemeSpec FloatSchemeProofs FloatRun.
Import ListNotations.
Open Scope R_scope.

Lemma neighbours_closed n h : In h (neighbours n) -> forall i, line n i -> line n (h i).
Proof.
  intros H i (j & Hj & ->). assert (N0 : n <> O) by lia. cbn in H. destruct H as [<-|[<-|[<-|[]]]].
  - exists j; auto.
  - exists ((j + 1) mod n)%nat. split; [apply Nat.mod_upper_bound; exact N0|reflexivity].
  - exists ((j + n - 1) mod n)%nat. split; [apply Nat.mod_upper_bound; exact N0|reflexivity].
Qed.
Lemma env_names n params (s : list nat -> R) i k :
  stencil_env (neighbours n) params s i k = names3 (s i) (s (next n i)) (s (prev n i)) params k.
Proof. unfold stencil_env. destruct k as [|[|[|k]]]; try reflexivity. cbn. destruct (nth_error _ _) eqn:E; [destruct k; discriminate|]. f_equal. lia. Qed.
Lemma peval_ext {V} (o : pops V) e1 e2 e : (forall k, e1 k = e2 k) -> peval o e1 e = peval o e2 e.
Proof. intros H. induction e; cbn [peval]; rewrite ?H, ?IHe, ?IHe1, ?IHe2; reflexivity. Qed.

Section Diffusion.
  Variables (L kappa : R) (n : nat) (enum : list sx -> list sx) (x : nat -> R) (ord : list datom -> list datom).
  Variable rpow : R -> R -> R.
  Variables (g : @grid RF) (caches : R -> list (string * nat) -> (list nat -> R) -> cache) (attr : string -> res (list nat -> R)).
  Hypothesis PL : 0 < L.
  Hypothesis LC : line_class L kappa n enum ord g caches attr.
  Hypothesis HK : 0 <= kappa.
  Notation f := (generated_trend enum x ord rpow ["x"%string] g caches attr diffusion).
  Notation h := (mesh L n).

  Variables (e : pexp) (p64 : nat -> b64) (p : nat -> R) (bp : nat -> eb).
  Hypothesis NP : forall k, near (p64 k) (p k) (bp k).
  Hypothesis EV : forall a b c, peval real_ops (names3 a b c p) e = kappa * ((b - 2 * a + c) / h ^ 2).

  Lemma diffusion_accurate : accurate (line n) (stencil_trend (neighbours n) p64 e) f (eb_stencil (neighbours n) bp e).
  Proof.
    apply stencil_near with (p := p); [apply neighbours_closed|exact NP|].
    intros t s. destruct (C109_diffusion_scheme L kappa n enum x ord rpow g caches attr t s PL LC) as (r & E & H).
    exists r. split; [exact E|]. intros i (j & Hj & ->). rewrite (H j Hj).
    rewrite (peval_ext real_ops _ _ e (env_names n p s [O; j])), EV. reflexivity.
  Qed.

  Lemma n_nz : (0 < n)%nat. Proof. exact (n_pos L kappa n enum ord g caches attr LC). Qed.

  Variable tau : R.
  Hypothesis CFL : 2 * kappa * tau <= h ^ 2.
  Variable s : onestep.

  Lemma diffusion_expands M : expands (line n) (@onestep_fun RF (list nat) s f) M 1 tau.
  Proof.
    intros t d x0 y0 x1 y1 er Hd _ _ E1 E2 C i (j & Hj & ->).
    pose proof (step_agrees kappa n h s f (diffusion_trend L kappa n enum x ord rpow g caches attr LC PL) t) as SA.
    destruct (SA x0 d) as (r & Er & Hr). destruct (SA y0 d) as (r' & Er' & Hr').
    rewrite Er in E1. rewrite Er' in E2. injection E1 as <-. injection E2 as <-.
    change (Rabs (at0 r j - at0 r' j) <= 1 * er). rewrite Hr, Hr' by exact Hj. rewrite exp_sub. rewrite Rmult_1_l.
    apply step_bounded; auto using n_nz; try lra.
    - apply h_pos; auto using n_nz.
    - nra.
    - intros i Hi. apply (C [O; i]). exists i; auto.
  Qed.

  Lemma diffusion_bounded M t d x0 : 0 <= d <= tau -> bounded (line n) M x0 ->
    exists x1, @onestep_fun RF (list nat) s f t x0 d = Ok x1 /\ bounded (line n) M x1.
  Proof.
    intros Hd B.
    destruct (step_agrees kappa n h s f (diffusion_trend L kappa n enum x ord rpow g caches attr LC PL) t x0 d) as (r & Er & Hr).
    exists r. split; [exact Er|]. intros i (j & Hj & ->). change (Rabs (at0 r j) <= M). rewrite Hr by exact Hj.
    apply step_bounded; auto using n_nz; try lra.
    - apply h_pos; auto using n_nz.
    - nra.
    - intros i Hi. apply (B [O; i]). exists i; auto.
  Qed.

  Lemma steps_bounded T M0 r : forall t x0, fruns T tau (t :: r) -> bounded (line n) M0 x0 ->
    exists l, steps Rminus (@onestep_fun RF (list nat) s) f (v t) (map (fun z : b64 => v z) r) x0 = Ok l /\
      List.length l = S (List.length r) /\ forall k y, nth_error l k = Some y -> bounded (line n) M0 y.
  Proof.
    induction r as [|t' r IH]; intros t x0 W B.
    - exists [x0]. split; [reflexivity|]. split; [reflexivity|]. intros [|k] y E; [injection E as <-; exact B|destruct k; discriminate].
    - assert (W' : fruns T tau (t' :: r)).
      { destruct W as [W1 W2 W3]. split; [intros z Hz; apply W1; right; exact Hz| |discriminate].
        intros k z z' Q Q'. apply (W2 (S k)); assumption. }
      destruct (diffusion_bounded M0 (v t) (v t' - v t) x0 (fr_step T tau _ W 0%nat t t' eq_refl eq_refl) B) as (x1 & E1 & B1).
      destruct (IH t' x1 W' B1) as (l & E & LL & BL).
      exists (x0 :: l). cbn [steps map]. change (v t' - v t)%R with (Rminus (v t') (v t)) in E1. rewrite E1. cbn [bind]. rewrite E. cbn [bind].
      split; [reflexivity|]. split; [cbn; f_equal; exact LL|].
      intros [|k] y Ey; [injection Ey as <-; exact B|exact (BL k y Ey)].
  Qed.

  Lemma accumulated_1 e0 rho r k : r <= rho -> accumulated 1 r e0 k <= e0 + INR k * rho.
  Proof. intros H. induction k as [|k IH]; [cbn; lra|]. cbn [accumulated]. rewrite S_INR. lra. Qed.

  Lemma diffusion_double T M0 M rho e0 w u0h u0 :
    let b := eb_onestep s (eb_stencil (neighbours n) bp e) (eb_exact T) (eb_exact M) (eb_step tau) in
    ok b -> err b <= rho -> 0 <= rho -> M0 + e0 + INR (List.length w) * rho <= M ->
    fruns T tau w -> bounded (line n) M0 u0 -> (forall i, line n i -> fin (u0h i)) -> close (line n) e0 (fun i => v (u0h i)) u0 ->
    exists l lh, predict Req_EM_T Rminus (@onestep_fun RF (list nat) s) f (map (fun z : b64 => v z) w) u0 SNone = Ok l /\
      predict b64_dec bsub (fonestep s) (stencil_trend (neighbours n) p64 e) w u0h SNone = Ok lh /\
      List.length l = List.length w /\ List.length lh = List.length w /\
      forall k yh y, nth_error lh k = Some yh -> nth_error l k = Some y -> forall i, line n i ->
        fin (yh i) /\ Rabs (v (yh i) - y i) <= e0 + INR k * rho.
  Proof.
    intros b O Hr Pr HM W B F C. destruct w as [|t r]; [destruct (fr_some _ _ _ W eq_refl)|].
    destruct (steps_bounded T M0 r t u0 W B) as (l & E & LL & BL).
    destruct (forecast_near (line n) (stencil_trend (neighbours n) p64 e) f (eb_stencil (neighbours n) bp e) s T M tau 1 e0 (t :: r) u0h u0 l)
      as (lh & E' & LL' & Q); auto using diffusion_accurate, diffusion_expands.
    - cbn [map]. rewrite predict_steps. exact E.
    - intros k y Hk i Hi. pose proof (BL k y Hk i Hi) as Y. pose proof (accumulated_1 e0 rho (err b) k Hr) as A. fold b.
      assert (Hlt : (k < List.length (t :: r))%nat) by (cbn; rewrite <- LL; apply nth_error_Some; rewrite Hk; discriminate).
      assert (INR k * rho <= INR (List.length (t :: r)) * rho) by (apply Rmult_le_compat_r; [exact Pr|apply le_INR; lia]). lra.
    - exists l, lh. split; [cbn [map]; rewrite predict_steps; exact E|]. split; [exact E'|]. split; [exact LL|]. split; [rewrite LL'; exact LL|].
      intros k yh y H1 H2 i Hi. destruct (Q k yh y H1 H2 i Hi) as (Q1 & Q2). split; [exact Q1|].
      eapply Rle_trans; [exact Q2|]. apply accumulated_1. exact Hr.
  Qed.
End Diffusion.

(** ** the exact solution *)
Lemma filter_true {A} (P : A -> bool) l : (forall a, In a l -> P a = true) -> filter P l = l.
Proof. induction l as [|a l IH]; intros H; [reflexivity|]. cbn. rewrite (H a) by (left; reflexivity). f_equal. apply IH. intros b Hb. apply H. right; exact Hb. Qed.
Lemma dget_nth {V} (d : dict R V) : forall k t y, NoDup (dkeys d) -> nth_error (dkeys d) k = Some t -> nth_error (dvalues d) k = Some y ->
  dget Req_EM_T t d = Some y.
Proof.
  induction d as [|[a b] d IH]; intros [|k] t y ND Hk Hv; try discriminate; cbn in *.
  - injection Hk as ->. injection Hv as ->. destruct (Req_EM_T t t); [reflexivity|contradiction].
  - inversion ND; subst. destruct (Req_EM_T t a) as [->|]; [|apply (IH k); assumption].
    exfalso. apply nth_error_In in Hk. auto.
Qed.
Section Solution.
  Context {S TR : Type}.
  Variables (scheme : TR -> R -> S -> R -> res S) (trend : TR).
  Lemma predict_forecast_nth w u0 l traj k t y : NoDup w ->
    predict Req_EM_T Rminus scheme trend w u0 SNone = Ok l -> forecast Req_EM_T Rminus scheme trend w u0 SNone = Ok traj ->
    nth_error w k = Some t -> nth_error l k = Some y -> dget Req_EM_T t traj = Some y.
  Proof.
    intros ND EP EF Hw Hl.
    pose proof (C03_predict_is_forecast_values Req_EM_T Rminus scheme trend w u0 SNone ND) as E. rewrite EP, EF in E. cbn in E. injection E as ->.
    pose proof (C01_forecast_keys Req_EM_T Rminus scheme trend w u0 SNone traj EF w) as KK.
    destruct KK as (K1 & K2 & K3); [intros t'; cbn; reflexivity|].
    assert (KW : dkeys traj = w).
    { rewrite K1. rewrite filter_true; [apply firsts_NoDup_id; exact ND|]. intros z Hz. destruct (in_dec Req_EM_T z w); [reflexivity|contradiction]. }
    apply (dget_nth traj k); [exact K2|rewrite KW; exact Hw|exact Hl].
  Qed.
End Solution.

Lemma diffusion_solved (L kappa t0 t1 : R) u s : 0 < L -> diffusion_solution L kappa t0 t1 u -> 0 <= kappa ->
  exists C, forall n enum ord g caches attr tau e p64 p bp T M0 M rho e0 w u0h u0,
    line_class L kappa n enum ord g caches attr -> 0 <= tau -> 2 * kappa * tau <= mesh L n ^ 2 ->
    (forall k, near (p64 k) (p k) (bp k)) ->
    (forall a b c, peval real_ops (names3 a b c p) e = kappa * ((b - 2 * a + c) / mesh L n ^ 2)) ->
    let b := eb_onestep s (eb_stencil (neighbours n) bp e) (eb_exact T) (eb_exact M) (eb_step tau) in
    ok b -> err b <= rho -> 0 <= rho -> M0 + e0 + INR (List.length w) * rho <= M ->
    fruns T tau w -> runs t0 t1 tau (map (fun z : b64 => v z) w) -> NoDup (map (fun z : b64 => v z) w) ->
    sampled L n (u O t0) u0 -> bounded (line n) M0 u0 -> (forall i, line n i -> fin (u0h i)) ->
    close (line n) e0 (fun i => v (u0h i)) u0 ->
    exists lh, predict b64_dec bsub (fonestep s) (stencil_trend (neighbours n) p64 e) w u0h SNone = Ok lh /\
      List.length lh = List.length w /\
      forall k t yh, nth_error w k = Some t -> nth_error lh k = Some yh -> forall j, (j < n)%nat ->
        fin (yh [O; j]) /\
        Rabs (v (yh [O; j]) - u O (v t) (INR j * mesh L n)) <= C * (tau ^ onestep_order s + mesh L n ^ 2) + (e0 + INR k * rho).
Proof.
  intros PL DS HK. destruct (C109_diffusion L kappa t0 t1 u s PL DS HK) as (C & HC). exists C.
  intros n enum ord g caches attr tau e p64 p bp T M0 M rho e0 w u0h u0 LC Ht CFL NP EV b Ob Hr Pr HM W RU ND SA B F CL.
  destruct (diffusion_double L kappa n enum (fun _ => 0) ord (fun a _ => a) g caches attr PL LC HK e p64 p bp NP EV tau CFL s T M0 M rho e0 w u0h u0 Ob Hr Pr HM W B F CL)
    as (l & lh & E1 & E2 & L1 & L2 & Q).
  destruct (HC n enum (fun _ => 0) ord (fun a _ => a) g caches attr tau _ u0 SNone LC RU SA Ht CFL ltac:(discriminate)) as (traj & EF & HT).
  exists lh. split; [exact E2|]. split; [exact L2|]. intros k t yh Hk Hy j Hj.
  assert (Hkl : (k < List.length w)%nat) by (apply nth_error_Some; rewrite Hk; discriminate).
  destruct (nth_error l k) as [y|] eqn:Ey; [|apply nth_error_None in Ey; lia].
  assert (Hw : nth_error (map (fun z : b64 => v z) w) k = Some (v t)) by (apply (map_nth_error (fun z : b64 => v z)); exact Hk).
  pose proof (predict_forecast_nth _ _ _ u0 l traj k (v t) y ND E1 EF Hw Ey) as G.
  destruct (HT (v t)) as (y' & G' & WI); [eapply nth_error_In; exact Hw|cbn; eapply nth_error_In; exact Hw|].
  assert (Y : Some y' = Some y) by (etransitivity; [symmetry; exact G'|exact G]). injection Y as ->.
  destruct (Q k yh y Hy Ey [O; j]) as (Q1 & Q2); [exists j; auto|]. split; [exact Q1|]. specialize (WI j Hj).
  replace (v (yh [O; j]) - u O (v t) (INR j * mesh L n)) with ((v (yh [O; j]) - y [O; j]) + (y [O; j] - u O (v t) (INR j * mesh L n))) by ring.
  eapply Rle_trans; [apply Rabs_triang|]. lra.
Qed.
