(** Stability of the schemes and convergence of the forecasts. *)
From Coq Require Import List Arith Reals Lra Lia FunctionalExtensionality.
From Verif Require Import PyBase Scalars SchemesModel SchemesSpec ForecastModel ForecastSpec ForecastProofs FDReal OrderSpec OrderProofs OrderLocal.
Import ListNotations.
Open Scope R_scope.

Section Stable.
  Context {I : Type}.
  Notation A := (I -> R).
  Variables (f : R -> A -> A) (a b : R) (y : R -> A) (r L M : R).
  Hypothesis Hr : 0 < r.
  Hypothesis HL : 0 <= L.
  Hypothesis HM : 0 <= M.
  (** pointwise forms of the hypotheses *)
  Definition close (u v : A) rho := forall i, Rabs (u i - v i) <= rho.
  Hypothesis Lip : forall s v w rho, a < s < b -> close v (y s) r -> close w (y s) r -> close v w rho -> close (f s v) (f s w) (L * rho).
  Hypothesis SOL : @solves I f a b y.
  Hypothesis FB : forall s i, a < s < b -> Rabs (f s (y s) i) <= M.

  Lemma close_refl u rho : 0 <= rho -> close u u rho.
  Proof. intros H i. rewrite Rminus_diag_eq by reflexivity. rewrite Rabs_R0. exact H. Qed.
  Lemma close_mono u v rho rho' : rho <= rho' -> close u v rho -> close u v rho'.
  Proof. intros H C i. specialize (C i). lra. Qed.

  Lemma y_moves t h : a < t -> t + h < b -> 0 <= h -> close (y (t + h)) (y t) (M * h).
  Proof.
    intros Ht Hb Hh i.
    pose proof (taylor_bound 1 (fun k s => match k with O => y s i | _ => f s (y s) i end) t h M Hh HM) as T.
    cbv beta iota in T. cbn [tay fact pow] in T. simpl INR in T.
    replace (y (t + h) i - y t i) with (y (t + h) i - (0 + y t i / 1 * 1)) by field.
    replace (M * h) with (M * (h * 1)) by ring. apply T.
    - intros k s Hk Hs. destruct k; [|lia]. apply SOL. lra.
    - intros s Hs. apply FB. lra.
  Qed.
  Lemma trend_bound s v : a < s < b -> close v (y s) r -> forall i, Rabs (f s v i) <= M + L * r.
  Proof.
    intros Hs Hv i. pose proof (Lip s v (y s) r Hs Hv (close_refl (y s) r ltac:(lra)) Hv i) as H.
    replace (f s v i) with (f s v i - f s (y s) i + f s (y s) i) by ring.
    eapply Rle_trans; [apply Rabs_triang|]. pose proof (FB s i Hs). lra.
  Qed.
  (** the intermediate states stay near the solution *)
  Lemma tube t h c v (k : A) : a < t -> t + h < b -> 0 < h -> h * (2 * M + L * r) <= r / 2 -> 0 <= c <= 1 ->
    close v (y t) (r / 2) -> (forall i, Rabs (k i) <= M + L * r) -> close (fun i => v i + c * h * k i) (y (t + c * h)) r.
  Proof.
    intros Ht Hb Hp Hs Hc Hv Hk i. cbv beta.
    assert (P : 0 <= c * h <= h).
    { split; [apply Rmult_le_pos; lra|]. rewrite <- (Rmult_1_l h) at 2. apply Rmult_le_compat_r; lra. }
    pose proof (y_moves t (c * h) Ht ltac:(lra) ltac:(lra) i) as Hy.
    replace (v i + c * h * k i - y (t + c * h) i) with ((v i - y t i) + (c * h * k i - (y (t + c * h) i - y t i))) by ring.
    eapply Rle_trans; [apply Rabs_triang|]. unfold Rminus at 2. pose proof (Hv i).
    pose proof (Rabs_triang (c * h * k i) (- (y (t + c * h) i - y t i))) as T. rewrite Rabs_Ropp in T.
    assert (K : Rabs (c * h * k i) <= h * (M + L * r)).
    { rewrite Rabs_mult, (Rabs_right (c * h)) by lra. apply Rmult_le_compat; try lra; [apply Rabs_pos|apply Hk]. }
    assert (M * (c * h) <= M * h) by (apply Rmult_le_compat_l; lra).
    lra.
  Qed.
  Lemma stage_close v w (k k' : A) c h rho x : 0 <= c <= 1 -> 0 < h <= 1 -> 0 <= rho -> 0 <= x ->
    close v w rho -> close k k' (x * rho) -> close (fun i => v i + c * h * k i) (fun i => w i + c * h * k' i) ((1 + x) * rho).
  Proof.
    intros Hc Hh Hrho Hx Hv Hk i. cbv beta.
    replace (v i + c * h * k i - (w i + c * h * k' i)) with ((v i - w i) + c * h * (k i - k' i)) by ring.
    eapply Rle_trans; [apply Rabs_triang|].
    assert (P : 0 <= c * h <= 1).
    { split; [apply Rmult_le_pos; lra|]. rewrite <- (Rmult_1_l 1). apply Rmult_le_compat; lra. }
    rewrite Rabs_mult, (Rabs_right (c * h)) by lra. specialize (Hv i). specialize (Hk i).
    assert (c * h * Rabs (k i - k' i) <= 1 * (x * rho)).
    { apply Rmult_le_compat; try lra. apply Rabs_pos. }
    lra.
  Qed.
  Lemma step_close v w (k k' : A) h rho x : 0 < h -> close v w rho -> close k k' (x * rho) ->
    close (fun i => v i + h * k i) (fun i => w i + h * k' i) ((1 + x * h) * rho).
  Proof.
    intros Hh Hv Hk i. cbv beta.
    replace (v i + h * k i - (w i + h * k' i)) with ((v i - w i) + h * (k i - k' i)) by ring.
    eapply Rle_trans; [apply Rabs_triang|]. rewrite Rabs_mult, (Rabs_right h) by lra.
    specialize (Hv i). specialize (Hk i). assert (h * Rabs (k i - k' i) <= h * (x * rho)) by (apply Rmult_le_compat_l; lra). lra.
  Qed.

  Definition G x := L * (1 + x).
  Definition stab : R := G 0 + G (G 0) + G (G (G 0)) + G (G (G (G 0))).
  Lemma G_pos x : 0 <= x -> 0 <= G x. Proof. intros H. unfold G. apply Rmult_le_pos; lra. Qed.
  Lemma G_mono x x' : x <= x' -> G x <= G x'. Proof. intros H. unfold G. apply Rmult_le_compat_l; lra. Qed.

  (** one more stage *)
  Lemma next_stage t h c v w (k k' : A) rho x : a < t -> t + h < b -> 0 < h <= 1 -> h * (2 * M + L * r) <= r / 2 -> 0 <= c <= 1 ->
    0 <= rho -> 0 <= x -> close v (y t) (r / 2) -> close w (y t) (r / 2) -> close v w rho ->
    (forall i, Rabs (k i) <= M + L * r) -> (forall i, Rabs (k' i) <= M + L * r) -> close k k' (x * rho) ->
    let q := f (t + c * h) (fun i => v i + c * h * k i) in let q' := f (t + c * h) (fun i => w i + c * h * k' i) in
    (forall i, Rabs (q i) <= M + L * r) /\ (forall i, Rabs (q' i) <= M + L * r) /\ close q q' (G x * rho).
  Proof.
    intros Ht Hb Hp Hs Hc Hrho Hx Hv Hw Hvw Hk Hk' Hkk q q'.
    assert (Hm : a < t + c * h < b) by (apply (mid a b); auto; lra).
    pose proof (tube t h c v k Ht Hb ltac:(lra) Hs Hc Hv Hk) as T.
    pose proof (tube t h c w k' Ht Hb ltac:(lra) Hs Hc Hw Hk') as T'.
    split; [apply trend_bound; auto|]. split; [apply trend_bound; auto|].
    unfold G. rewrite Rmult_assoc. apply Lip; auto. apply stage_close; auto.
  Qed.

  Lemma step_stable s t h v w rho : a < t -> t + h < b -> 0 < h <= 1 -> h * (2 * M + L * r) <= r / 2 ->
    0 <= rho -> close v (y t) (r / 2) -> close w (y t) (r / 2) -> close v w rho ->
    close (step_r f s t v h) (step_r f s t w h) ((1 + stab * h) * rho).
  Proof.
    intros Ht Hb Hp Hs Hrho Hv Hw Hvw.
    assert (g0 : 0 <= G 0) by (apply G_pos; lra). assert (g1 : 0 <= G (G 0)) by (apply G_pos; lra).
    assert (g2 : 0 <= G (G (G 0))) by (apply G_pos; lra). assert (g3 : 0 <= G (G (G (G 0)))) by (apply G_pos; lra).
    assert (Hv' := close_mono v (y t) (r / 2) r ltac:(lra) Hv). assert (Hw' := close_mono w (y t) (r / 2) r ltac:(lra) Hw).
    assert (B1 : forall i, Rabs (f t v i) <= M + L * r) by (apply trend_bound; auto; lra).
    assert (B1' : forall i, Rabs (f t w i) <= M + L * r) by (apply trend_bound; auto; lra).
    assert (K1 : close (f t v) (f t w) (G 0 * rho)).
    { unfold G. rewrite Rplus_0_r, Rmult_1_r. apply Lip; auto; lra. }
    destruct (next_stage t h (/ 2) v w (f t v) (f t w) rho (G 0) Ht Hb Hp Hs ltac:(lra) Hrho g0 Hv Hw Hvw B1 B1' K1) as (B2 & B2' & K2).
    assert (EH : forall u (k : A), (fun i => u i + / 2 * h * k i) = (fun i => u i + h * / 2 * k i)).
    { intros u k. extensionality i. ring. }
    destruct s; cbn [step_r].
    - unfold euler_r. eapply close_mono; [|apply step_close; [lra|exact Hvw|exact K1]].
      apply Rmult_le_compat_r; [exact Hrho|]. apply Rplus_le_compat_l, Rmult_le_compat_r; [lra|]. unfold stab. lra.
    - unfold rk2_r. rewrite !EH in K2. eapply close_mono; [|apply step_close; [lra|exact Hvw|exact K2]].
      apply Rmult_le_compat_r; [exact Hrho|]. apply Rplus_le_compat_l, Rmult_le_compat_r; [lra|]. unfold stab. lra.
    - unfold rk4_r. replace (t + h * / 2) with (t + / 2 * h) by ring. rewrite !EH in *.
      set (p2 := f (t + / 2 * h) (fun i => v i + h * / 2 * f t v i)) in *.
      set (p2' := f (t + / 2 * h) (fun i => w i + h * / 2 * f t w i)) in *.
      destruct (next_stage t h (/ 2) v w p2 p2' rho (G (G 0)) Ht Hb Hp Hs ltac:(lra) Hrho g1 Hv Hw Hvw B2 B2' K2) as (B3 & B3' & K3).
      rewrite !EH in *.
      set (p3 := f (t + / 2 * h) (fun i => v i + h * / 2 * p2 i)) in *.
      set (p3' := f (t + / 2 * h) (fun i => w i + h * / 2 * p2' i)) in *.
      destruct (next_stage t h 1 v w p3 p3' rho (G (G (G 0))) Ht Hb Hp Hs ltac:(lra) Hrho g2 Hv Hw Hvw B3 B3' K3) as (B4 & B4' & K4).
      rewrite !Rmult_1_l in *.
      set (p4 := f (t + h) (fun i => v i + h * p3 i)) in *.
      set (p4' := f (t + h) (fun i => w i + h * p3' i)) in *.
      assert (K : close (fun i => / 6 * (f t v i + 2 * p2 i + 2 * p3 i + p4 i)) (fun i => / 6 * (f t w i + 2 * p2' i + 2 * p3' i + p4' i)) (stab * rho)).
      { intros i. cbv beta. specialize (K1 i). specialize (K2 i). specialize (K3 i). specialize (K4 i).
        replace (/ 6 * (f t v i + 2 * p2 i + 2 * p3 i + p4 i) - / 6 * (f t w i + 2 * p2' i + 2 * p3' i + p4' i))
          with (/ 6 * (f t v i - f t w i) + / 3 * (p2 i - p2' i) + / 3 * (p3 i - p3' i) + / 6 * (p4 i - p4' i)) by field.
        eapply Rle_trans; [apply Rabs_triang|].
        eapply Rle_trans; [apply Rplus_le_compat_r, Rabs_triang|].
        eapply Rle_trans; [apply Rplus_le_compat_r, Rplus_le_compat_r, Rabs_triang|].
        rewrite !Rabs_mult, (Rabs_right (/ 6)), (Rabs_right (/ 3)) by lra. unfold stab.
        assert (0 <= G 0 * rho) by (apply Rmult_le_pos; auto). assert (0 <= G (G 0) * rho) by (apply Rmult_le_pos; auto).
        assert (0 <= G (G (G 0)) * rho) by (apply Rmult_le_pos; auto). assert (0 <= G (G (G (G 0))) * rho) by (apply Rmult_le_pos; auto).
        lra. }
      pose proof (step_close v w _ _ h rho stab ltac:(lra) Hvw K) as F.
      intros i. specialize (F i). cbv beta in F. unfold Rdiv. rewrite !Rmult_assoc. exact F.
  Qed.
  Lemma stab_pos : 0 <= stab.
  Proof.
    unfold stab. assert (0 <= G 0) by (apply G_pos; lra). assert (0 <= G (G 0)) by (apply G_pos; lra).
    assert (0 <= G (G (G 0))) by (apply G_pos; lra). assert (0 <= G (G (G (G 0)))) by (apply G_pos; lra). lra.
  Qed.

  (** ** accumulation of the errors *)
  Variables (s : onestep) (p : nat) (C h0 : R).
  Hypothesis HC : 0 <= C.
  Hypothesis Hp1 : (1 <= p)%nat.
  Hypothesis LOC : forall t h, a < t -> t + h < b -> 0 < h <= h0 -> close (step_r f s t (y t) h) (y (t + h)) (C * h ^ S p).

  Definition W := Rmax 0 (b - a).
  Definition EE := exp (stab * W).
  Definition CC := EE * (1 + C * W).
  Lemma EE_pos : 0 < EE. Proof. apply exp_pos. Qed.
  Lemma W_pos : 0 <= W. Proof. apply Rmax_l. Qed.
  Lemma CC_pos : 0 < CC.
  Proof. apply Rmult_lt_0_compat; [apply EE_pos|]. pose proof (Rmult_le_pos C W HC W_pos). lra. Qed.

  Section Run.
    Variables (t0 h delta : R).
    Hypothesis Ht0 : a < t0 < b.
    Hypothesis Hh : 0 < h <= h0.
    Hypothesis Hh1 : h <= 1.
    Hypothesis Hs : h * (2 * M + L * r) <= r / 2.
    Hypothesis Hd : 0 <= delta.
    Hypothesis Hsmall : CC * (delta + h ^ p) <= r / 2.
    Definition err t := exp (stab * (t - t0)) * (delta + C * h ^ p * (t - t0)).

    Lemma hp_pos : 0 <= h ^ p. Proof. apply pow_le. lra. Qed.
    Lemma err_le t : t0 <= t < b -> 0 <= err t <= CC * (delta + h ^ p).
    Proof.
      intros Ht. pose proof hp_pos as P. pose proof stab_pos as S.
      assert (X : 0 <= t - t0 <= W). { split; [lra|]. unfold W. eapply Rle_trans; [|apply Rmax_r]. lra. }
      assert (Q : 0 <= C * h ^ p) by (apply Rmult_le_pos; auto).
      assert (Q1 : 0 <= C * h ^ p * (t - t0)) by (apply Rmult_le_pos; lra).
      unfold err. split.
      - apply Rmult_le_pos; [apply Rlt_le, exp_pos|]. lra.
      - unfold CC. rewrite (Rmult_assoc EE). apply Rmult_le_compat.
        + apply Rlt_le, exp_pos.
        + lra.
        + unfold EE. destruct (Req_dec (stab * (t - t0)) (stab * W)) as [->|E]; [apply Rle_refl|].
          apply Rlt_le, exp_increasing. assert (stab * (t - t0) <= stab * W) by (apply Rmult_le_compat_l; lra). lra.
        + assert (C * h ^ p * (t - t0) <= C * h ^ p * W) by (apply Rmult_le_compat_l; lra).
          pose proof (Rmult_le_pos C W HC W_pos). assert (0 <= C * W * delta) by (apply Rmult_le_pos; auto). lra.
    Qed.
    Lemma one_step t k u : t0 <= t -> t + k < b -> 0 < k <= h -> close u (y t) (err t) ->
      close (step_r f s t u k) (y (t + k)) (err (t + k)).
    Proof.
      intros Ht Hb Hk Hu. pose proof (err_le t ltac:(lra)) as [E0 E1].
      assert (Hv : close u (y t) (r / 2)) by (eapply close_mono; [|exact Hu]; lra).
      assert (Hq : 0 <= 2 * M + L * r). { pose proof (Rmult_le_pos L r HL ltac:(lra)). lra. }
      assert (Hsk : k * (2 * M + L * r) <= r / 2).
      { eapply Rle_trans; [|exact Hs]. apply Rmult_le_compat_r; lra. }
      pose proof (step_stable s t k u (y t) (err t) ltac:(lra) Hb ltac:(lra) Hsk E0 Hv (close_refl (y t) (r / 2) ltac:(lra)) Hu) as ST.
      pose proof (LOC t k ltac:(lra) Hb ltac:(lra)) as LC.
      intros i. specialize (ST i). specialize (LC i).
      replace (step_r f s t u k i - y (t + k) i) with ((step_r f s t u k i - step_r f s t (y t) k i) + (step_r f s t (y t) k i - y (t + k) i)) by ring.
      eapply Rle_trans; [apply Rabs_triang|]. eapply Rle_trans; [apply Rplus_le_compat; [exact ST|exact LC]|].
      pose proof stab_pos as SP. pose proof hp_pos as P.
      assert (EX : 1 + stab * k <= exp (stab * k)).
      { destruct (Req_dec (stab * k) 0) as [->|N].
        - rewrite exp_0. lra.
        - apply Rlt_le. apply exp_ineq1. exact N. }
      assert (KP : k ^ p <= h ^ p) by (apply pow_incr; lra).
      unfold err. replace (stab * (t + k - t0)) with (stab * k + stab * (t - t0)) by ring. rewrite exp_plus.
      assert (X1 : 1 <= exp (stab * (t - t0))).
      { destruct (Req_dec (stab * (t - t0)) 0) as [->|N].
        - rewrite exp_0. lra.
        - pose proof (exp_ineq1 (stab * (t - t0)) N). pose proof (Rmult_le_pos stab (t - t0) SP ltac:(lra)). lra. }
      assert (X2 : 1 <= exp (stab * k)). { pose proof (Rmult_le_pos stab k SP ltac:(lra)). lra. }
      set (x := exp (stab * (t - t0))) in *. set (z := exp (stab * k)) in *.
      assert (XZ : 1 <= z * x). { rewrite <- (Rmult_1_l 1). apply Rmult_le_compat; lra. }
      assert (Q : 0 <= C * h ^ p) by (apply Rmult_le_pos; auto).
      replace (z * x * (delta + C * h ^ p * (t + k - t0))) with (z * (x * (delta + C * h ^ p * (t - t0))) + z * x * (C * h ^ p * k)) by ring.
      apply Rplus_le_compat.
      - apply Rmult_le_compat_r; [|exact EX]. apply E0.
      - simpl. replace (C * (k * k ^ p)) with (C * k ^ p * k) by ring.
        assert (C * k ^ p * k <= C * h ^ p * k). { apply Rmult_le_compat_r; [lra|]. apply Rmult_le_compat_l; auto. }
        assert (0 <= C * h ^ p * k) by (apply Rmult_le_pos; lra).
        assert (1 * (C * h ^ p * k) <= z * x * (C * h ^ p * k)) by (apply Rmult_le_compat_r; auto). lra.
    Qed.
    Lemma run w u k v : reach Rminus (@onestep_fun RF I s) (@pure RF I f) w u k v ->
      forall t w', w = t :: w' -> t0 <= t -> (forall t', In t' w -> a < t' < b) -> steps_below h w -> close u (y t) (err t) ->
      forall t', nth_error w k = Some t' -> t0 <= t' /\ close v (y t') (err t').
    Proof.
      intros Hreach. induction Hreach as [t1 w1 u1|t1 t2 w1 u1 u2 k v E _ IH]; intros t w' Ew Hle Hin Hst Hu t' Hn.
      - injection Ew as -> ->. cbn in Hn. injection Hn as <-. auto.
      - injection Ew as <- <-. cbn [steps_below] in Hst. destruct Hst as [Hst1 Hst2].
        rewrite step_is in E. injection E as <-.
        pose proof (Hin t2 (or_intror (or_introl eq_refl))) as H2.
        pose proof (one_step t1 (t2 - t1) u1 Hle ltac:(lra) Hst1 Hu) as O.
        replace (t1 + (t2 - t1)) with t2 in O by ring.
        apply (IH t2 w1 eq_refl); auto.
        + lra.
        + intros t'' Hi. apply Hin. right. exact Hi.
    Qed.
  End Run.
End Stable.

Lemma pow_le_1 h p : (1 <= p)%nat -> 0 <= h <= 1 -> h ^ p <= h.
Proof.
  intros Hp Hh. destruct p; [lia|]. simpl. rewrite <- (Rmult_1_r h) at 3. apply Rmult_le_compat_l; [lra|].
  rewrite <- (pow1 p). apply pow_incr. lra.
Qed.

Lemma convergence {I} s (f : R -> (I -> R) -> I -> R) a b y p : (1 <= p)%nat ->
  @smooth I 1 a b y -> @solves I f a b y -> @lipschitz_near I f a b y -> @step_order I s f a b y p -> @forecast_order I s f a b y p.
Proof.
  intros Hp (d & M & D0 & DD & DM) SOL (r & L & Hr & Lip) (C0 & h0 & Hh0 & LOC).
  set (L' := Rmax 0 L). set (M' := Rmax 0 M). set (C := Rmax 0 C0).
  assert (HL : 0 <= L') by apply Rmax_l. assert (HM : 0 <= M') by apply Rmax_l. assert (HC : 0 <= C) by apply Rmax_l.
  assert (Lip' : forall s v w rho, a < s < b -> close v (y s) r -> close w (y s) r -> close v w rho -> close (f s v) (f s w) (L' * rho)).
  { intros q v w rho Hq Hv Hw Hvw i. eapply Rle_trans; [apply (Lip q v w rho Hq Hv Hw Hvw i)|].
    apply Rmult_le_compat_r; [|apply Rmax_r]. eapply Rle_trans; [|apply (Hvw i)]. apply Rabs_pos. }
  assert (FB : forall q i, a < q < b -> Rabs (f q (y q) i) <= M').
  { intros q i Hq. rewrite (trend_d1 f a b y d 1 D0 DD SOL q (le_n _) Hq).
    eapply Rle_trans; [apply (DM 1%nat q ltac:(lia) Hq)|apply Rmax_r]. }
  assert (LOC' : forall t h, a < t -> t + h < b -> 0 < h <= h0 -> close (step_r f s t (y t) h) (y (t + h)) (C * h ^ S p)).
  { intros t h Ht Hb Hh i. destruct (LOC t h Ht Hb Hh) as (u & E & Hu). rewrite step_is in E. injection E as <-.
    eapply Rle_trans; [apply Hu|]. apply Rmult_le_compat_r; [apply pow_le; lra|apply Rmax_r]. }
  set (K := CC a b L' C). assert (HK : 0 < K) by (apply CC_pos; exact HC).
  set (q := 2 * M' + L' * r + 1).
  assert (Hq : 1 <= q). { unfold q. pose proof (Rmult_le_pos L' r HL ltac:(lra)). lra. }
  set (h1 := Rmin h0 (Rmin 1 (Rmin (r / (4 * K)) (r / (2 * q))))).
  assert (P1 : 0 < r / (4 * K)) by (apply Rdiv_lt_0_compat; lra).
  assert (P2 : 0 < r / (2 * q)) by (apply Rdiv_lt_0_compat; lra).
  assert (Q : h1 <= h0 /\ h1 <= 1 /\ h1 <= r / (4 * K) /\ h1 <= r / (2 * q) /\ 0 < h1).
  { unfold h1. pose proof (Rmin_l h0 (Rmin 1 (Rmin (r / (4 * K)) (r / (2 * q))))). pose proof (Rmin_r h0 (Rmin 1 (Rmin (r / (4 * K)) (r / (2 * q))))).
    pose proof (Rmin_l 1 (Rmin (r / (4 * K)) (r / (2 * q)))). pose proof (Rmin_r 1 (Rmin (r / (4 * K)) (r / (2 * q)))).
    pose proof (Rmin_l (r / (4 * K)) (r / (2 * q))). pose proof (Rmin_r (r / (4 * K)) (r / (2 * q))).
    repeat split; try lra. repeat apply Rmin_glb_lt; lra. }
  destruct Q as (Q0 & Q1 & Q2 & Q3 & Q4).
  exists K, h1. split; [exact Q4|]. intros w t0 u0 sv h delta Hh Hdelta Hin Hst Hu Hsv.
  assert (Ht0 : a < t0 < b) by (apply Hin; left; reflexivity).
  assert (HP : h ^ p <= h) by (apply pow_le_1; auto; lra). assert (HP0 : 0 <= h ^ p) by (apply pow_le; lra).
  assert (Hsm : K * (delta + h ^ p) <= r / 2).
  { assert (K * (delta + h ^ p) <= K * (2 * (r / (4 * K)))) by (apply Rmult_le_compat_l; lra).
    replace (r / 2) with (K * (2 * (r / (4 * K)))) by (field; lra). exact H. }
  assert (Hs : h * (2 * M' + L' * r) <= r / 2).
  { assert (h * q <= r / (2 * q) * q) by (apply Rmult_le_compat_r; lra). replace (r / (2 * q) * q) with (r / 2) in H by (field; lra).
    unfold q in H. lra. }
  destruct (forecast Req_EM_T Rminus (@onestep_fun RF I s) (@pure RF I f) (t0 :: w) u0 sv) as [traj|e] eqn:E.
  - exists traj. split; [reflexivity|]. intros t u Hg.
    apply (forecast_values Req_EM_T Rminus (@onestep_fun RF I s) (@pure RF I f) _ _ _ _ E) in Hg.
    destruct Hg as [_ (k & Hn & _ & Hre)].
    destruct (run f a b y r L' M' Hr HL HM Lip' SOL FB s p C h0 HC LOC' t0 h delta Ht0 ltac:(lra) ltac:(lra) Hs ltac:(lra) Hsm
                (t0 :: w) u0 k u Hre t0 w eq_refl ltac:(lra) Hin Hst) with (t' := t) as [Hle Hcl].
    + intros i. unfold err. rewrite (Rminus_diag_eq t0 t0 eq_refl). rewrite !Rmult_0_r, exp_0, Rmult_1_l, Rplus_0_r. apply Hu.
    + exact Hn.
    + intros i. eapply Rle_trans; [apply Hcl|].
      apply (err_le a b L' HL p C h0 HC t0 h delta Ht0 ltac:(lra) ltac:(lra)). split; [exact Hle|]. apply Hin. eapply nth_error_In, Hn.
  - exfalso. apply (proj1 (forecast_Err Req_EM_T Rminus (@onestep_fun RF I s) (@pure RF I f) _ _ _ _)) in E.
    destruct E as [[E _]|[(_ & E & _)|[_ (k & t & t' & u & _ & _ & _ & E)]]]; [discriminate|contradiction|].
    rewrite step_is in E. discriminate.
Qed.
