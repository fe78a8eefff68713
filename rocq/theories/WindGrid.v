(** The centred transport by winds that vary: a conservative part and a bounded part. *)
From Coq Require Import List Arith ZArith Bool Reals String Lia Lra Psatz Permutation FunctionalExtensionality.
From Verif Require Import PyBase PyBaseFacts Scalars FieldFacts FDExprModel FDExprSpec FDSpec FDReal GridModel GridSpec ConsistSpec
  SchemesModel SchemesSpec EnergySpec EnergyProofs AdvectModel AdvectSpec AdvectGrid AdvectConv WindNorm.
Import ListNotations.
Open Scope R_scope.

Section Wind.
  Variables (lengths : list R) (shape : list nat).
  Hypothesis Hd : forall k, (k < List.length shape)%nat -> 0 < step_of lengths shape k.
  Hypothesis NE : exists js, in_range shape js.
  Notation gs := (GS shape).
  Notation slope := (slope lengths shape).
  Notation h := (step_of lengths shape).
  Notation nrm := (norm (dot shape)).
  Notation over := (over_axes shape).

  Lemma over_ext f g : (forall k, (k < List.length shape)%nat -> f k = g k) -> over f = over g.
  Proof. intros H. unfold over_axes. f_equal. apply map_ext_in. intros k Hk. apply in_seq in Hk. apply H. lia. Qed.
  Lemma over_le f g : (forall k, (k < List.length shape)%nat -> f k <= g k) -> over f <= over g.
  Proof.
    intros H. unfold over_axes. assert (S : forall k, In k (seq 0 (List.length shape)) -> (k < List.length shape)%nat) by (intros k Hk; apply in_seq in Hk; lia).
    induction (seq 0 (List.length shape)) as [|k l IH]; cbn; [lra|]. apply Rplus_le_compat; [apply H, S; left; auto|apply IH; intros; apply S; right; auto].
  Qed.
  Lemma over_scale c f : over (fun k => c * f k) = c * over f.
  Proof. unfold over_axes. induction (seq 0 (List.length shape)) as [|k l IH]; cbn; [ring|]. rewrite IH. ring. Qed.
  Lemma over_add f g : over (fun k => f k + g k) = over f + over g.
  Proof. unfold over_axes. induction (seq 0 (List.length shape)) as [|k l IH]; cbn; [ring|]. rewrite IH. ring. Qed.
  Lemma over_zero : over (fun _ => 0) = 0.
  Proof. unfold over_axes. induction (seq 0 (List.length shape)) as [|k l IH]; cbn; [ring|]. rewrite IH. ring. Qed.
  Lemma over_nonneg f : (forall k, (k < List.length shape)%nat -> 0 <= f k) -> 0 <= over f.
  Proof. intros H. rewrite <- over_zero. apply over_le. auto. Qed.
  Lemma gs_over (f : nat -> list nat -> R) : gs (fun js => over (fun k => f k js)) = over (fun k => gs (f k)).
  Proof. apply gs_list. Qed.

  (** norms *)
  Lemma norm_ext (a b : list nat -> R) : (forall js, in_range shape js -> a js = b js) -> nrm a = nrm b.
  Proof. intros H. unfold norm, dot. f_equal. apply gs_ext. intros js Hj. rewrite !H by auto. reflexivity. Qed.
  Lemma norm_plus (a b : list nat -> R) : nrm (fun js => a js + b js) <= nrm a + nrm b.
  Proof. exact (norm_add (dot shape) (dot_inner shape) a b). Qed.
  Lemma norm_times (c : R) (a : list nat -> R) : nrm (fun js => c * a js) = Rabs c * nrm a.
  Proof. exact (norm_scale (dot shape) (dot_inner shape) c a). Qed.
  Lemma norm_mono (a b : list nat -> R) : (forall js, in_range shape js -> Rabs (a js) <= Rabs (b js)) -> nrm a <= nrm b.
  Proof.
    intros H. unfold norm, dot. apply sqrt_le_1_alt, gs_le. intros js Hj. specialize (H js Hj).
    change (Rsqr (a js) <= Rsqr (b js)). apply Rsqr_le_abs_1. exact H.
  Qed.
  Lemma norm_mult V (W a : list nat -> R) : 0 <= V -> (forall js, in_range shape js -> Rabs (W js) <= V) -> nrm (fun js => W js * a js) <= V * nrm a.
  Proof.
    intros PV H. rewrite <- (Rabs_pos_eq V PV), <- norm_times. apply norm_mono. intros js Hj. rewrite !Rabs_mult, (Rabs_pos_eq V) by auto.
    apply Rmult_le_compat_r; [apply Rabs_pos|auto].
  Qed.
  Lemma norm_over (f : nat -> list nat -> R) : nrm (fun js => over (fun k => f k js)) <= over (fun k => nrm (f k)).
  Proof.
    unfold over_axes. induction (seq 0 (List.length shape)) as [|k l IH]; cbn [map fold_right].
    - apply Req_le. apply (norm_zero (dot shape) (dot_inner shape)). reflexivity.
    - eapply Rle_trans; [apply (norm_plus (f k))|]. lra.
  Qed.
  Lemma norm_next k (a : list nat -> R) : (k < List.length shape)%nat -> nrm (fun js => a (next shape k js)) = nrm a.
  Proof. intros Hk. unfold norm, dot. f_equal. apply (gs_next shape k (fun js => a js * a js) Hk). Qed.
  Lemma norm_prev k (a : list nat -> R) : (k < List.length shape)%nat -> nrm (fun js => a (prev shape k js)) = nrm a.
  Proof. intros Hk. unfold norm, dot. f_equal. apply (gs_prev shape k (fun js => a js * a js) Hk). Qed.
  Lemma norm_slope k (a : list nat -> R) : (k < List.length shape)%nat -> nrm (slope k a) <= nrm a / h k.
  Proof.
    intros Hk. pose proof (Hd k Hk) as P. apply Rle_trans with (nrm (fun js => / (2 * h k) * a (next shape k js) + - / (2 * h k) * a (prev shape k js))).
    - apply Req_le, norm_ext. intros js _. unfold AdvectSpec.slope. field. lra.
    - eapply Rle_trans; [apply (norm_plus (fun js => / (2 * h k) * a (next shape k js)))|].
      rewrite (norm_times (/ (2 * h k)) (fun js => a (next shape k js))), (norm_times (- / (2 * h k)) (fun js => a (prev shape k js))), norm_next, norm_prev by auto.
      rewrite Rabs_Ropp, Rabs_pos_eq by (apply Rlt_le, Rinv_0_lt_compat; lra). apply Req_le. field. lra.
  Qed.

  Variables (W : nat -> list nat -> R) (Z : list nat -> R) (V L : nat -> R) (zeta : R).
  Hypothesis HV : forall k js, (k < List.length shape)%nat -> in_range shape js -> Rabs (W k js) <= V k.
  Hypothesis HL : forall k js, (k < List.length shape)%nat -> in_range shape js -> Rabs (W k (next shape k js) - W k js) <= L k * h k.
  Hypothesis HZ : forall js, in_range shape js -> Rabs (Z js) <= zeta.
  (** transport and a term of order 0 *)
  Definition flowz (a : list nat -> R) : list nat -> R := cut shape (fun js => transported lengths shape W a js + Z js * a js).
  Definition skewed (a : list nat -> R) : list nat -> R :=
    cut shape (fun js => - / 2 * over (fun k => W k js * slope k a js + slope k (fun i => W k i * a i) js)).
  Lemma slope_lin k (c d : R) (a b : list nat -> R) js : slope k (fun i => c * a i + d * b i) js = c * slope k a js + d * slope k b js.
  Proof. unfold AdvectSpec.slope, Rdiv. ring. Qed.
  Lemma linear_of (T : (list nat -> R) -> list nat -> R) : (forall c d a b js, T (fun i => c * a i + d * b i) js = c * T a js + d * T b js) ->
    @linear RF (list nat) (list nat) (fun a => cut shape (T a)).
  Proof.
    intros H. split.
    - intros a b. apply functional_extensionality. intros js. unfold vadd, cut. cbn [fadd RF F]. destruct (inb shape js); [|cbn; ring].
      replace (fun i => a i + b i) with (fun i => 1 * a i + 1 * b i) by (apply functional_extensionality; intros; ring). rewrite (H 1 1 a b). ring.
    - intros k a. apply functional_extensionality. intros js. unfold vscale, cut. cbn [fmul RF F]. destruct (inb shape js); [|cbn; ring].
      replace (fun i => k * a i) with (fun i => k * a i + 0 * a i) by (apply functional_extensionality; intros; ring). rewrite (H k 0 a a). ring.
  Qed.
  Lemma transported_lin (c d : R) (a b : list nat -> R) js :
    transported lengths shape W (fun i => c * a i + d * b i) js = c * transported lengths shape W a js + d * transported lengths shape W b js.
  Proof.
    unfold transported. rewrite !Ropp_mult_distr_r_reverse, <- Ropp_plus_distr, <- !over_scale, <- over_add. f_equal. apply over_ext. intros k _.
    rewrite slope_lin. ring.
  Qed.
  Lemma flowz_linear : @linear RF (list nat) (list nat) flowz.
  Proof.
    apply (linear_of (fun a js => transported lengths shape W a js + Z js * a js)). intros. rewrite transported_lin. ring.
  Qed.
  Lemma skewed_linear : @linear RF (list nat) (list nat) skewed.
  Proof.
    apply (linear_of (fun a js => - / 2 * over (fun k => W k js * slope k a js + slope k (fun i => W k i * a i) js))). intros.
    replace (c * (- / 2 * over (fun k => W k js * slope k a js + slope k (fun i => W k i * a i) js)) + d * (- / 2 * over (fun k => W k js * slope k b js + slope k (fun i => W k i * b i) js)))
      with (- / 2 * (c * over (fun k => W k js * slope k a js + slope k (fun i => W k i * a i) js) + d * over (fun k => W k js * slope k b js + slope k (fun i => W k i * b i) js))) by ring.
    f_equal. rewrite <- !over_scale, <- over_add. apply over_ext. intros k _. rewrite slope_lin.
    replace (fun i => W k i * (c * a i + d * b i)) with (fun i => c * (W k i * a i) + d * (W k i * b i)) by (apply functional_extensionality; intros; ring).
    rewrite (slope_lin k c d (fun i => W k i * a i) (fun i => W k i * b i)). ring.
  Qed.
  Lemma skewed_conservative : conservative (dot shape) skewed.
  Proof.
    intros a. unfold dot.
    transitivity (- / 2 * over (fun k => gs (fun js => a js * (W k js * slope k a js)) + gs (fun js => a js * slope k (fun i => W k i * a i) js))).
    - rewrite (over_ext _ (fun k => gs (fun js => a js * (W k js * slope k a js) + a js * slope k (fun i => W k i * a i) js))) by (intros; rewrite gs_add; reflexivity).
      rewrite <- gs_over, <- gs_scale. apply gs_ext. intros js H. unfold skewed. rewrite cut_in by auto.
      replace (a js * (- / 2 * over (fun k => W k js * slope k a js + slope k (fun i => W k i * a i) js)))
        with (- / 2 * (a js * over (fun k => W k js * slope k a js + slope k (fun i => W k i * a i) js))) by ring.
      f_equal. rewrite <- over_scale. apply over_ext. intros; ring.
    - rewrite (over_ext _ (fun _ => 0)); [rewrite over_zero; ring|]. intros k Hk.
      rewrite (slope_parts lengths shape Hd k a (fun i => W k i * a i) Hk).
      rewrite (gs_ext shape (fun js => slope k a js * (W k js * a js)) (fun js => a js * (W k js * slope k a js))) by (intros; ring). ring.
  Qed.
  Lemma V_nonneg k : (k < List.length shape)%nat -> 0 <= V k.
  Proof. intros Hk. destruct NE as (js & H). eapply Rle_trans; [apply Rabs_pos|apply (HV k js); auto]. Qed.
  Lemma L_nonneg k : (k < List.length shape)%nat -> 0 <= L k.
  Proof.
    intros Hk. destruct NE as (js & H). pose proof (HL k js Hk H) as B. pose proof (Hd k Hk) as P. pose proof (Rabs_pos (W k (next shape k js) - W k js)).
    destruct (Rle_dec 0 (L k)) as [|N]; auto. exfalso. apply Rnot_le_lt in N. nra.
  Qed.
  Lemma zeta_nonneg : 0 <= zeta.
  Proof. destruct NE as (js & H). eapply Rle_trans; [apply Rabs_pos|apply (HZ js); auto]. Qed.
  Lemma courant_nonneg : 0 <= courant lengths shape V.
  Proof. apply over_nonneg. intros k Hk. apply Rmult_le_pos; [apply V_nonneg; auto|apply Rlt_le, Rinv_0_lt_compat, Hd; auto]. Qed.
  Lemma skewed_norm (a : list nat -> R) : nrm (skewed a) <= courant lengths shape V * nrm a.
  Proof.
    apply Rle_trans with (nrm (fun js => - / 2 * over (fun k => W k js * slope k a js + slope k (fun i => W k i * a i) js))).
    { apply Req_le, norm_ext. intros js H. unfold skewed. apply cut_in; auto. }
    rewrite (norm_times (- / 2) (fun js => over (fun k => W k js * slope k a js + slope k (fun i => W k i * a i) js))).
    rewrite Rabs_Ropp, Rabs_pos_eq by lra.
    apply Rle_trans with (/ 2 * over (fun k => 2 * (V k / h k * nrm a))).
    - apply Rmult_le_compat_l; [lra|]. eapply Rle_trans; [apply norm_over|]. apply over_le. intros k Hk. pose proof (Hd k Hk) as P. pose proof (V_nonneg k Hk) as PV.
      eapply Rle_trans; [apply (norm_plus (fun js => W k js * slope k a js))|].
      assert (X1 : nrm (fun js => W k js * slope k a js) <= V k / h k * nrm a).
      { eapply Rle_trans; [apply (norm_mult (V k)); auto|]. unfold Rdiv. rewrite Rmult_assoc. apply Rmult_le_compat_l; auto.
        pose proof (norm_slope k a Hk). unfold Rdiv in *. lra. }
      assert (X2 : nrm (slope k (fun i => W k i * a i)) <= V k / h k * nrm a).
      { eapply Rle_trans; [apply norm_slope; auto|]. unfold Rdiv. rewrite Rmult_assoc, (Rmult_comm (/ h k)), <- Rmult_assoc.
        apply Rmult_le_compat_r; [apply Rlt_le, Rinv_0_lt_compat; auto|]. apply norm_mult; auto. }
      replace (2 * (V k / h k * nrm a)) with (V k / h k * nrm a + V k / h k * nrm a) by ring. apply Rplus_le_compat; [exact X1|exact X2].
    - apply Req_le. rewrite over_scale. unfold courant.
      rewrite (over_ext (fun k => V k / h k * nrm a) (fun k => nrm a * (V k / h k))) by (intros; ring). rewrite over_scale. field.
  Qed.
  Definition shear : R := zeta + / 2 * over L.
  Lemma shear_nonneg : 0 <= shear.
  Proof. unfold shear. pose proof zeta_nonneg. pose proof (over_nonneg L L_nonneg). lra. Qed.
  Lemma bounded_part (a : list nat -> R) : nrm (vsub (flowz a) (skewed a)) <= shear * nrm a.
  Proof.
    assert (E : forall js, in_range shape js -> vsub (flowz a) (skewed a) js =
      Z js * a js + / 2 * over (fun k => ((W k (next shape k js) - W k js) * a (next shape k js) + (W k js - W k (prev shape k js)) * a (prev shape k js)) / (2 * h k))).
    { intros js H. unfold vsub, vadd, vscale. cbn [fadd fmul RF F]. unfold flowz, skewed. rewrite !cut_in by auto. unfold transported.
      set (zz := Z js * a js).
      match goal with |- - ?A1 + zz + -1 * (- / 2 * ?A2) = zz + / 2 * ?A3 => assert (G : -2 * A1 + A2 = A3); [|lra] end.
      rewrite <- over_scale, <- over_add. apply over_ext. intros k Hk. unfold AdvectSpec.slope. pose proof (Hd k Hk). field. lra. }
    rewrite (norm_ext _ _ E). unfold shear.
    eapply Rle_trans; [apply (norm_plus (fun js => Z js * a js))|]. rewrite Rmult_plus_distr_r. apply Rplus_le_compat; [apply norm_mult; auto; apply zeta_nonneg|].
    rewrite (norm_times (/ 2) (fun js => over (fun k => ((W k (next shape k js) - W k js) * a (next shape k js) + (W k js - W k (prev shape k js)) * a (prev shape k js)) / (2 * h k)))).
    rewrite Rabs_pos_eq by lra. rewrite Rmult_assoc. apply Rmult_le_compat_l; [lra|].
    eapply Rle_trans; [apply norm_over|]. rewrite Rmult_comm, <- over_scale. apply over_le. intros k Hk. pose proof (Hd k Hk) as P. pose proof (L_nonneg k Hk) as PL.
    apply Rle_trans with (nrm (fun js => (W k (next shape k js) - W k js) / (2 * h k) * a (next shape k js) + (W k js - W k (prev shape k js)) / (2 * h k) * a (prev shape k js))).
    { apply Req_le, norm_ext. intros. field. lra. }
    eapply Rle_trans; [apply (norm_plus (fun js => (W k (next shape k js) - W k js) / (2 * h k) * a (next shape k js)))|].
    assert (Q : forall x, Rabs x <= L k * h k -> Rabs (x / (2 * h k)) <= L k / 2).
    { intros x Hx. unfold Rdiv. rewrite Rabs_mult, (Rabs_pos_eq (/ (2 * h k))) by (apply Rlt_le, Rinv_0_lt_compat; lra).
      apply (Rmult_le_reg_r (2 * h k)); [lra|]. rewrite Rmult_assoc, Rinv_l by lra. lra. }
    assert (X1 : nrm (fun js => (W k (next shape k js) - W k js) / (2 * h k) * a (next shape k js)) <= L k / 2 * nrm a).
    { rewrite <- (norm_next k a) by auto. apply (norm_mult (L k / 2) (fun js => (W k (next shape k js) - W k js) / (2 * h k)) (fun js => a (next shape k js))); [lra|].
      intros js H. apply Q. auto. }
    assert (X2 : nrm (fun js => (W k js - W k (prev shape k js)) / (2 * h k) * a (prev shape k js)) <= L k / 2 * nrm a).
    { rewrite <- (norm_prev k a) by auto. apply (norm_mult (L k / 2) (fun js => (W k js - W k (prev shape k js)) / (2 * h k)) (fun js => a (prev shape k js))); [lra|].
      intros js H. apply Q. pose proof (HL k (prev shape k js) Hk (prev_in shape k js Hk H)) as B. rewrite next_prev in B by auto. exact B. }
    replace (nrm a * L k) with (L k / 2 * nrm a + L k / 2 * nrm a) by field. apply Rplus_le_compat; [exact X1|exact X2].
  Qed.
  (** the growth of the norm in a step of rk4 *)
  Theorem flowz_rk4 (dt : R) a : 0 <= dt -> dt * courant lengths shape V <= 2 * sqrt 2 ->
    nrm (@exp_taylor RF (list nat) flowz dt 4 a) <= (1 + dt * shear * exp (2 * sqrt 2 + dt * shear)) * nrm a.
  Proof.
    intros Ht C. pose proof courant_nonneg as P. pose proof shear_nonneg as PS.
    pose proof (rk4_grows (dot shape) (dot_inner shape) flowz skewed (courant lengths shape V) shear flowz_linear skewed_linear skewed_conservative
      (norm_at_most (dot shape) (dot_inner shape) skewed _ P skewed_norm) P PS bounded_part dt Ht a C) as G.
    eapply Rle_trans; [exact G|]. apply Rmult_le_compat_r; [apply norm_pos|]. apply Rplus_le_compat_l. apply Rmult_le_compat_l; [apply Rmult_le_pos; auto|].
    rewrite Rmult_plus_distr_l.
    destruct (Rle_lt_or_eq_dec _ _ C) as [Lt|Eq]; [left; apply exp_increasing; lra|rewrite Eq; lra].
  Qed.
  Lemma flowz_norm a : nrm (flowz a) <= (courant lengths shape V + shear) * nrm a.
  Proof. pose proof courant_nonneg as P.
    exact (split_norm (dot shape) (dot_inner shape) flowz skewed (courant lengths shape V) shear (norm_at_most (dot shape) (dot_inner shape) skewed _ P skewed_norm) P bounded_part a).
  Qed.
End Wind.
