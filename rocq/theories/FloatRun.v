(** Proofs of C122: expressions and whole forecasts. *)
From Coq Require Import List ZArith Bool Reals Lra Lia Arith.
From Flocq Require Import Core.Core IEEE754.BinarySingleNaN.
From Verif Require Import PyBase PyBaseFacts Scalars FieldFacts FDReal ForecastModel SchemesModel SchemesSpec FloatModel FloatSpec FloatProofs FloatSchemeModel FloatSchemeSpec FloatSchemeProofs.
Import ListNotations.
Open Scope R_scope.

(** ** predict at all the times, step by step *)
Section Steps.
  Context {T Dt S TR : Type}.
  Variable teq : forall a b : T, {a = b} + {a <> b}.
  Variable tsub : T -> T -> Dt.
  Variable scheme : TR -> T -> S -> Dt -> res S.
  Variable trend : TR.
  Fixpoint steps (t : T) (r : list T) (u : S) : res (list S) :=
    match r with
    | [] => Ok [u]
    | t' :: r' => u1 <- scheme trend t u (tsub t' t) ;; l <- steps t' r' u1 ;; Ok (u :: l)
    end.

  Lemma predict_loop_steps W r : forall t traj u, (forall x, In x (t :: r) -> In x W) ->
    (rr <- predict_loop teq tsub scheme trend (SIter W) (intervals (t :: r)) traj u ;; let '(traj', u') := rr in Ok (traj' ++ [u']))
    = (l <- steps t r u ;; Ok (traj ++ l)).
  Proof.
    induction r as [|t' r IH]; intros t traj u HW; [reflexivity|].
    change (intervals (t :: t' :: r)) with ((t, t') :: intervals (t' :: r)). cbn [predict_loop py_in bind steps].
    assert (E : lmem teq t W = true) by (apply lmem_true; apply HW; left; reflexivity). rewrite E.
    destruct (scheme trend t u (tsub t' t)) as [u1|]; [|reflexivity]. cbn [bind]. rewrite IH.
    - destruct (steps t' r u1); [|reflexivity]. cbn [bind]. rewrite <- app_assoc. reflexivity.
    - intros x Hx. apply HW. right. exact Hx.
  Qed.

  Lemma predict_steps t r u : predict teq tsub scheme trend (t :: r) u SNone = steps t r u.
  Proof.
    pose proof (predict_loop_steps (t :: r) r t [] u (fun x H => H)) as P. unfold predict. cbn [check_saved_times].
    assert (HL : exists z, last_opt (t :: r) = Some z /\ In z (t :: r)).
    { clear. revert t. induction r as [|x r IH]; intros t; [exists t; split; [reflexivity|left; reflexivity]|].
      destruct (IH x) as (z & E & Hz). exists z. split; [exact E|right; exact Hz]. }
    destruct HL as (z & EZ & HZ).
    destruct (predict_loop teq tsub scheme trend (SIter (t :: r)) (intervals (t :: r)) [] u) as [[traj u']|e].
    - cbn [bind] in *. rewrite EZ. cbn [py_in bind]. assert (E : lmem teq z (t :: r) = true) by (apply lmem_true; exact HZ). rewrite E.
      rewrite P. destruct (steps t r u); reflexivity.
    - cbn [bind] in *. destruct (steps t r u); cbn [bind] in P; [discriminate|]. exact P.
  Qed.
End Steps.

Section Main.
  Context {I : Type}.
  Variable D : I -> Prop.

  Lemma self_near (sh : I -> b64) M : (forall i, D i -> fin (sh i)) -> bounded D M (fun i => v (sh i)) ->
    anear D sh (fun i => v (sh i)) (eb_exact M).
  Proof.
    intros F B i Hi. split; [auto|]. cbn. replace (v (sh i) - v (sh i)) with 0 by ring. rewrite Rabs_R0.
    split; [lra|]. split; [apply (B i Hi)|]. split; apply Rabs_pos.
  Qed.
  Lemma abs_of d H : 0 <= d <= H -> Rabs d <= H.
  Proof. intros Q. rewrite Rabs_pos_eq; lra. Qed.
  Lemma step_near th th' H : fin th -> fin th' -> Rabs (v th' - v th) <= H -> H <= limit ->
    near (bsub th' th) (v th' - v th) (eb_step H).
  Proof.
    intros F F' B L. destruct (bsub_ok th' th F' F) as (F'' & E); [rewrite <- big_eq; lra|].
    split; [exact F''|]. rewrite E. split; [apply rounding_le; exact B|]. split; [exact B|]. cbn. split; apply Rabs_pos.
  Qed.

  Variable g : ftrend I.
  Variable f : R -> (I -> R) -> res (I -> R).
  Variable bt : eb -> eb -> eb.
  Variable s : onestep.
  Hypothesis A : accurate D g f bt.
  Variables (T M H K e0 : R).
  Notation bound := (eb_onestep s bt (eb_exact T) (eb_exact M) (eb_step H)).
  Notation rho := (err bound).
  Hypothesis O : ok bound.
  Hypothesis OH : H <= limit.
  Hypothesis EX : expands D (@onestep_fun RF I s f) M K H.

  Lemma accumulated_shift k e : accumulated K rho (K * e + rho) k = accumulated K rho e (S k).
  Proof. induction k as [|k IH]; [reflexivity|]. cbn [accumulated] in *. rewrite IH. reflexivity. Qed.

  Lemma close_bounded e M' (sh : I -> b64) x : (forall i, D i -> Rabs (v (sh i) - x i) <= e) -> bounded D (M' - e) x ->
    bounded D M' (fun i => v (sh i)).
  Proof.
    intros C B i Hi. specialize (C i Hi). specialize (B i Hi). replace (v (sh i)) with ((v (sh i) - x i) + x i) by ring.
    eapply Rle_trans; [apply Rabs_triang|]. lra.
  Qed.

  Lemma steps_near r : forall t e sh x l, fruns T H (t :: r) -> (forall i, D i -> fin (sh i)) ->
    (forall i, D i -> Rabs (v (sh i) - x i) <= e) ->
    steps Rminus (@onestep_fun RF I s) f (v t) (map (fun z : b64 => v z) r) x = Ok l ->
    (forall k y, nth_error l k = Some y -> bounded D (M - accumulated K rho e k) y) ->
    exists lh, steps bsub (fonestep s) g t r sh = Ok lh /\ List.length lh = List.length l /\
      forall k yh y, nth_error lh k = Some yh -> nth_error l k = Some y -> forall i, D i ->
        fin (yh i) /\ Rabs (v (yh i) - y i) <= accumulated K rho e k.
  Proof.
    induction r as [|t' r IH]; intros t e sh x l W F C E B.
    - cbn in E. injection E as <-. exists [sh]. split; [reflexivity|]. split; [reflexivity|].
      intros [|k] yh y H1 H2 i Hi; cbn in H1, H2; [|destruct k; discriminate]. injection H1 as <-. injection H2 as <-. split; [auto|apply C; exact Hi].
    - cbn [steps map] in E. destruct (@onestep_fun RF I s f (v t) x (v t' - v t)%R) as [x1|] eqn:E1; [|discriminate]. cbn [bind] in E.
      destruct (steps Rminus (@onestep_fun RF I s) f (v t') (map (fun z : b64 => v z) r) x1) as [l1|] eqn:E2; [|discriminate].
      cbn [bind] in E. injection E as <-.
      assert (W' : fruns T H (t' :: r)).
      { destruct W as [W1 W2 W3]. split; [intros z Hz; apply W1; right; exact Hz| |discriminate].
        intros k z z' Q Q'. apply (W2 (S k)); assumption. }
      pose proof (fr_fin T H _ W t ltac:(left; reflexivity)) as (Ft & Tt).
      pose proof (fr_fin T H _ W t' ltac:(right; left; reflexivity)) as (Ft' & Tt').
      pose proof (fr_step T H _ W 0%nat t t' eq_refl eq_refl) as Hd.
      assert (B0 : bounded D (M - e) x) by exact (B 0%nat x eq_refl).
      assert (BM : bounded D M (fun i => v (sh i))) by (apply (close_bounded e M sh x C B0)).
      assert (NT : near t (v t) (eb_exact T)).
      { split; [exact Ft|]. cbn. replace (v t - v t) with 0 by ring. rewrite Rabs_R0. repeat split; try apply Rabs_pos; auto; lra. }
      destruct (onestep_near D g f bt s A t (v t) _ sh (fun i => v (sh i)) _ (bsub t' t) (v t' - v t) _ NT (self_near sh M F BM)
         (step_near t t' H Ft Ft' (abs_of _ _ Hd) OH) O) as (rh & r1 & G1 & G2 & N).
      assert (BX : bounded D M x) by (intros i Hi; specialize (B0 i Hi); pose proof (C i Hi); pose proof (Rabs_pos (v (sh i) - x i)); lra).
      assert (CX : close D (K * e) r1 x1).
      { apply (EX (v t) (v t' - v t) (fun i => v (sh i)) x r1 x1 e Hd BM BX G2 E1). intros i Hi. apply C; exact Hi. }
      cbn [steps]. rewrite G1. cbn [bind].
      assert (C1 : forall i, D i -> Rabs (v (rh i) - x1 i) <= K * e + rho).
      { intros i Hi. destruct (N i Hi) as (_ & Q & _). specialize (CX i Hi).
        replace (v (rh i) - x1 i) with ((v (rh i) - r1 i) + (r1 i - x1 i)) by ring.
        eapply Rle_trans; [apply Rabs_triang|]. lra. }
      destruct (IH t' (K * e + rho) rh x1 l1 W') as (lh & L1 & L2 & L3); auto.
      + intros i Hi. apply (N i Hi).
      + intros k y Hk. rewrite accumulated_shift. apply (B (S k) y Hk).
      + exists (sh :: lh). rewrite L1. split; [reflexivity|]. split; [cbn; f_equal; exact L2|].
        intros [|k] yh y H1 H2 i Hi; cbn in H1, H2.
        * injection H1 as <-. injection H2 as <-. split; [auto|]. apply C; exact Hi.
        * rewrite <- accumulated_shift. apply (L3 k yh y H1 H2 i Hi).
  Qed.
End Main.

(** ** generated expressions *)
Lemma stencil_near {I} (D : I -> Prop) (shifts : list (I -> I)) p64 p bp e f :
  (forall h, In h shifts -> forall i, D i -> D (h i)) -> (forall k, near (p64 k) (p k) (bp k)) ->
  (forall t s, exists k, f t s = Ok k /\ forall i, D i -> k i = peval real_ops (stencil_env shifts p s i) e) ->
  accurate D (stencil_trend shifts p64 e) f (eb_stencil shifts bp e).
Proof.
  intros HD HP HF th t b sh s b' Nt Ns O. destruct (HF t s) as (k & Ek & Hk).
  exists (fun i => peval ops64 (stencil_env shifts p64 sh i) e), k. split; [reflexivity|]. split; [exact Ek|].
  intros i Hi. rewrite (Hk i Hi). apply peval_near; [|exact O]. intros j. unfold stencil_env.
  destruct (nth_error shifts j) as [h|] eqn:E; [|apply HP]. apply Ns. apply (HD h); [|exact Hi]. eapply nth_error_In; exact E.
Qed.

(** ** the whole forecast *)
Lemma forecast_near {I} (D : I -> Prop) g f bt s T M H K e0 w u0h u0 l : accurate D g f bt ->
  ok (eb_onestep s bt (eb_exact T) (eb_exact M) (eb_step H)) ->
  expands D (@onestep_fun RF I s f) M K H -> fruns T H w -> (forall i, D i -> fin (u0h i)) ->
  close D e0 (fun i => v (u0h i)) u0 ->
  predict Req_EM_T Rminus (@onestep_fun RF I s) f (map (fun z : b64 => v z) w) u0 SNone = Ok l ->
  (forall k y, nth_error l k = Some y ->
     bounded D (M - accumulated K (err (eb_onestep s bt (eb_exact T) (eb_exact M) (eb_step H))) e0 k) y) ->
  exists lh, predict b64_dec bsub (fonestep s) g w u0h SNone = Ok lh /\ List.length lh = List.length l /\
    forall k yh y, nth_error lh k = Some yh -> nth_error l k = Some y -> forall i, D i ->
      fin (yh i) /\ Rabs (v (yh i) - y i) <= accumulated K (err (eb_onestep s bt (eb_exact T) (eb_exact M) (eb_step H))) e0 k.
Proof.
  intros A O EX W F C E B.
  assert (OH : H <= limit) 
    by (destruct s; [destruct O as (_ & (Od & _) & _)|destruct O as (_ & (Od & _) & _)|destruct O as (_ & (_ & (Od & _) & _) & _)]; exact Od). destruct w as [|t r]; [destruct (fr_some _ _ _ W eq_refl)|].
  cbn [map] in E. rewrite predict_steps in E. rewrite predict_steps.
  apply (steps_near D g f bt s A T M H K O OH EX r t e0 u0h u0 l W F C E B).
Qed.
