(** The centred scheme of a second order operator on a periodic grid of two axes: sums, symmetry, bounds. *)
From Coq Require Import List Arith ZArith Bool Reals String Lia Lra Psatz Permutation FunctionalExtensionality.
From Verif Require Import PyBase PyBaseFacts Scalars FieldFacts FDExprModel FDExprSpec FDExprProofs FDSpec FDReal GridModel GridSpec GridProofs GridMore
  ConsistSpec ConsistMain SchemesModel SchemesSpec SchemesProofs EnergySpec EnergyProofs AdvectModel AdvectSpec AdvectTrend AdvectGrid AdvectConv WindNorm DiffuseModel DiffuseSpec.
Import ListNotations.
Open Scope R_scope.

Lemma abs_between x y : Rabs x <= y -> - y <= x <= y.
Proof. intros H. pose proof (Rle_abs x). pose proof (Rle_abs (- x)). rewrite Rabs_Ropp in *. lra. Qed.
Lemma opp_inj a b : - a = - b -> a = b. Proof. lra. Qed.
(** ** the operator *)
Record coefs (X : Type) := mk_coefs { c20 : X; c11 : X; c02 : X; c10 : X; c01 : X }.
Arguments mk_coefs {X}. Arguments c20 {X}. Arguments c11 {X}. Arguments c02 {X}. Arguments c10 {X}. Arguments c01 {X}.

Section Operator.
  Variables (lengths : list R) (shape : list nat).
  Hypothesis Ls : List.length shape = 2%nat.
  Hypothesis Hd : forall k, (k < List.length shape)%nat -> 0 < step_of lengths shape k.
  Notation gs := (GS shape).
  Notation slope := (slope lengths shape).
  Notation curve := (curve lengths shape).
  Notation h := (step_of lengths shape).
  Lemma h0 : 0 < h 0%nat. Proof. apply Hd. lia. Qed.
  Lemma h1 : 0 < h 1%nat. Proof. apply Hd. lia. Qed.
  Lemma curve_ext k (a b : list nat -> R) js : (k < List.length shape)%nat -> in_range shape js ->
    (forall js, in_range shape js -> a js = b js) -> curve k a js = curve k b js.
  Proof. intros Hk H E. unfold DiffuseSpec.curve. rewrite !E by (auto; first [apply next_in|apply prev_in]; auto). reflexivity. Qed.
  Definition value5 (c : coefs (list nat -> R)) (a : list nat -> R) (js : list nat) : R :=
    c20 c js * curve 0 a js + c11 c js * slope 0 (slope 1 a) js + c02 c js * curve 1 a js + c10 c js * slope 0 a js + c01 c js * slope 1 a js.
  Definition spread (c : coefs (list nat -> R)) (a : list nat -> R) : list nat -> R := cut shape (value5 c a).
  Lemma value5_ext c (a b : list nat -> R) js : in_range shape js -> (forall js, in_range shape js -> a js = b js) -> value5 c a js = value5 c b js.
  Proof.
    intros H E. unfold value5. rewrite (curve_ext 0 a b), (curve_ext 1 a b), (slope_ext lengths shape 0 a b), (slope_ext lengths shape 1 a b) by (auto; lia).
    rewrite (slope_ext lengths shape 0 (slope 1 a) (slope 1 b)) by (auto; try lia; intros; apply slope_ext; auto; lia). reflexivity.
  Qed.
  Lemma spread_linear c : @linear RF (list nat) (list nat) (spread c).
  Proof.
    split; intros; apply functional_extensionality; intros js; unfold spread, cut, vadd, vscale; cbn [fadd fmul RF F];
      destruct (inb shape js); cbn; try ring; unfold value5, DiffuseSpec.curve, AdvectSpec.slope, Rdiv; ring.
  Qed.
  Lemma slope_const k (a : R) js : slope k (fun _ => a) js = 0.
  Proof. unfold AdvectSpec.slope, Rdiv. ring. Qed.

  (** ** sums *)
  Lemma gs_minus f g : gs (fun js => f js - g js) = gs f - gs g.
  Proof. unfold Rminus. rewrite (gs_add shape f (fun js => - g js)), gs_opp. reflexivity. Qed.
  Lemma gs_slope k a : (k < List.length shape)%nat -> gs (slope k a) = 0.
  Proof.
    intros Hk. pose proof (Hd k Hk). transitivity (/ (2 * h k) * gs (fun js => a (next shape k js) - a (prev shape k js))).
    - rewrite <- gs_scale. apply gs_ext. intros js _. unfold AdvectSpec.slope, Rdiv. ring.
    - rewrite (gs_minus (fun js => a (next shape k js)) (fun js => a (prev shape k js))), gs_next, gs_prev by auto. ring.
  Qed.
  Lemma gs_curve k a : (k < List.length shape)%nat -> gs (curve k a) = 0.
  Proof.
    intros Hk. pose proof (Hd k Hk). transitivity (/ (h k ^ 2) * gs (fun js => (a (next shape k js) - a js) - (a js - a (prev shape k js)))).
    - rewrite <- gs_scale. apply gs_ext. intros js _. unfold DiffuseSpec.curve, Rdiv. ring.
    - rewrite (gs_minus (fun js => a (next shape k js) - a js) (fun js => a js - a (prev shape k js))), (gs_minus (fun js => a (next shape k js)) a), (gs_minus a), gs_next, gs_prev by auto. ring.
  Qed.
  (** the forward difference and the mean of two neighbours *)
  Definition fore k (a : list nat -> R) (js : list nat) : R := (a (next shape k js) - a js) / h k.
  Definition mid k (a : list nat -> R) (js : list nat) : R := (a (next shape k js) + a js) / 2.
  Lemma curve_parts k (a b : list nat -> R) : (k < List.length shape)%nat -> gs (fun js => b js * curve k a js) = - gs (fun js => fore k a js * fore k b js).
  Proof.
    intros Hk. pose proof (Hd k Hk). 
    transitivity (gs (fun js => / (h k ^ 2) * (b js * (a (next shape k js) - a js))) + - gs (fun js => / (h k ^ 2) * (b js * (a js - a (prev shape k js))))).
    - rewrite <- gs_opp, <- gs_add. apply gs_ext. intros js _. unfold DiffuseSpec.curve, Rdiv. ring.
    - rewrite <- (gs_next shape k (fun js => / (h k ^ 2) * (b js * (a js - a (prev shape k js))))) by auto.
      rewrite <- gs_opp, <- gs_add, <- gs_opp. apply gs_ext. intros js Hj. rewrite prev_next by auto. unfold fore. field. lra.
  Qed.
  Lemma next_comm js : in_range shape js -> next shape 0 (next shape 1 js) = next shape 1 (next shape 0 js).
  Proof. intros H. destruct shape as [|n [|m [|? ?]]]; try discriminate Ls. inversion H as [|? ? ? ? A H1]; subst. inversion H1 as [|? ? ? ? B H2]; subst. reflexivity. Qed.
  Lemma prev_comm js : in_range shape js -> prev shape 0 (prev shape 1 js) = prev shape 1 (prev shape 0 js).
  Proof. intros H. destruct shape as [|n [|m [|? ?]]]; try discriminate Ls. inversion H as [|? ? ? ? A H1]; subst. inversion H1 as [|? ? ? ? B H2]; subst. reflexivity. Qed.
  Lemma next_prev_comm js : in_range shape js -> next shape 0 (prev shape 1 js) = prev shape 1 (next shape 0 js).
  Proof. intros H. destruct shape as [|n [|m [|? ?]]]; try discriminate Ls. inversion H as [|? ? ? ? A H1]; subst. inversion H1 as [|? ? ? ? B H2]; subst. reflexivity. Qed.
  Lemma prev_next_comm js : in_range shape js -> prev shape 0 (next shape 1 js) = next shape 1 (prev shape 0 js).
  Proof. intros H. destruct shape as [|n [|m [|? ?]]]; try discriminate Ls. inversion H as [|? ? ? ? A H1]; subst. inversion H1 as [|? ? ? ? B H2]; subst. reflexivity. Qed.
  Lemma slope_comm a js : in_range shape js -> slope 0 (slope 1 a) js = slope 1 (slope 0 a) js.
  Proof.
    intros H. pose proof h0. pose proof h1. unfold AdvectSpec.slope. rewrite <- (next_comm js H), <- (prev_comm js H), <- (next_prev_comm js H), <- (prev_next_comm js H). field. lra.
  Qed.
  Lemma cross_parts a b : gs (fun js => b js * slope 0 (slope 1 a) js) = - gs (fun js => slope 0 b js * slope 1 a js).
  Proof. apply (slope_parts lengths shape Hd). lia. Qed.
  Lemma cross_sym a b : gs (fun js => slope 0 b js * slope 1 a js) = gs (fun js => slope 0 a js * slope 1 b js).
  Proof.
    apply opp_inj. rewrite <- cross_parts.
    rewrite (gs_ext shape _ (fun js => b js * slope 1 (slope 0 a) js)) by (intros; rewrite slope_comm by auto; reflexivity).
    rewrite (slope_parts lengths shape Hd) by lia. f_equal. apply gs_ext. intros; ring.
  Qed.
  Lemma slope_fore k a : (k < List.length shape)%nat -> gs (fun js => slope k a js * slope k a js) <= gs (fun js => fore k a js * fore k a js).
  Proof.
    intros Hk. pose proof (Hd k Hk).
    apply Rle_trans with (gs (fun js => / 2 * (fore k a js * fore k a js) + / 2 * (fore k a (prev shape k js) * fore k a (prev shape k js)))).
    - apply gs_le. intros js Hj. assert (E : slope k a js = (fore k a js + fore k a (prev shape k js)) / 2).
      { unfold fore. rewrite next_prev by auto. unfold AdvectSpec.slope. field. lra. }
      rewrite E. assert (0 <= (fore k a js - fore k a (prev shape k js)) ^ 2) by apply pow2_ge_0. lra.
    - rewrite gs_add, !gs_scale, (gs_prev shape k (fun js => fore k a js * fore k a js)) by auto. lra.
  Qed.
  Lemma slope_mid k a : (k < List.length shape)%nat -> gs (fun js => slope k a js * slope k a js) <= 4 / h k ^ 2 * gs (fun js => mid k a js * mid k a js).
  Proof.
    intros Hk. pose proof (Hd k Hk). assert (0 < / h k ^ 2) by (apply Rinv_0_lt_compat, pow_lt; auto).
    apply Rle_trans with (gs (fun js => 2 / h k ^ 2 * (mid k a js * mid k a js) + 2 / h k ^ 2 * (mid k a (prev shape k js) * mid k a (prev shape k js)))).
    - apply gs_le. intros js Hj. assert (E : slope k a js = (mid k a js - mid k a (prev shape k js)) / h k).
      { unfold mid. rewrite next_prev by auto. unfold AdvectSpec.slope. field. lra. }
      rewrite E. set (p := mid k a js). set (q := mid k a (prev shape k js)).
      replace ((p - q) / h k * ((p - q) / h k)) with (/ h k ^ 2 * (p - q) ^ 2) by (field; lra).
      replace (2 / h k ^ 2 * (p * p) + 2 / h k ^ 2 * (q * q)) with (/ h k ^ 2 * (2 * (p * p) + 2 * (q * q))) by (unfold Rdiv; ring).
      apply Rmult_le_compat_l; [lra|]. assert (0 <= (p + q) ^ 2) by apply pow2_ge_0. lra.
    - rewrite gs_add, !gs_scale, (gs_prev shape k (fun js => mid k a js * mid k a js)) by auto. apply Req_le. unfold Rdiv. ring.
  Qed.
  Lemma mid_fore k a : (k < List.length shape)%nat ->
    4 / h k ^ 2 * gs (fun js => a js * a js) = 4 / h k ^ 2 * gs (fun js => mid k a js * mid k a js) + gs (fun js => fore k a js * fore k a js).
  Proof.
    intros Hk. pose proof (Hd k Hk).
    transitivity (gs (fun js => 2 / h k ^ 2 * (a (next shape k js) * a (next shape k js)) + 2 / h k ^ 2 * (a js * a js))).
    - rewrite gs_add, !gs_scale, (gs_next shape k (fun js => a js * a js)) by auto. unfold Rdiv. ring.
    - rewrite <- gs_scale, <- gs_add. apply gs_ext. intros js _. unfold mid, fore. field. lra.
  Qed.

  (** ** constant tensors *)
  Section Constant.
    Variable K : kappa R.
    Hypothesis HK : dissipates K.
    Definition constant5 : coefs (list nat -> R) := mk_coefs (fun _ => k11 K) (fun _ => 2 * k12 K) (fun _ => k22 K) (fun _ => 0) (fun _ => 0).
    Notation A := (spread constant5).
    Lemma constant_mass a : gs (A a) = 0.
    Proof.
      transitivity (gs (fun js => (k11 K * curve 0 a js + 2 * k12 K * slope 0 (slope 1 a) js) + k22 K * curve 1 a js)).
      { apply gs_ext. intros js H. unfold spread. rewrite cut_in by auto. unfold value5, constant5. cbn [c20 c11 c02 c10 c01]. ring. }
      rewrite gs_add, gs_add, !gs_scale. change (gs (fun js => curve 0 a js)) with (gs (curve 0 a)). change (gs (fun js => curve 1 a js)) with (gs (curve 1 a)).
      change (gs (fun js => slope 0 (slope 1 a) js)) with (gs (slope 0 (slope 1 a))). rewrite !gs_curve, gs_slope by lia. ring.
    Qed.
    Definition form (a b : list nat -> R) : R :=
      k11 K * gs (fun js => fore 0 a js * fore 0 b js) + 2 * k12 K * gs (fun js => slope 0 b js * slope 1 a js) + k22 K * gs (fun js => fore 1 a js * fore 1 b js).
    Lemma form_ok a b : dot shape b (A a) = - form a b.
    Proof.
      unfold dot.
      transitivity (gs (fun js => (k11 K * (b js * curve 0 a js) + 2 * k12 K * (b js * slope 0 (slope 1 a) js)) + k22 K * (b js * curve 1 a js))).
      { apply gs_ext. intros js H. unfold spread. rewrite cut_in by auto. unfold value5, constant5. cbn [c20 c11 c02 c10 c01]. ring. }
      rewrite gs_add, gs_add, !gs_scale, !curve_parts, cross_parts by lia. unfold form. ring.
    Qed.
    Lemma form_sym a b : form a b = form b a.
    Proof.
      unfold form. rewrite cross_sym. f_equal; [f_equal|]; f_equal; apply gs_ext; intros; ring.
    Qed.
    Lemma tensor_pos x y : 0 <= k11 K * (x * x) + 2 * k12 K * (x * y) + k22 K * (y * y).
    Proof.
      destruct HK as (P1 & P2 & P3). destruct (Req_dec (k11 K) 0) as [E|N].
      - rewrite E in *. assert (Z : k12 K = 0) by nra. rewrite Z. assert (0 <= k22 K * (y * y)) by (apply Rmult_le_pos; auto; nra). lra.
      - assert (P : 0 < k11 K) by lra. apply (Rmult_le_reg_l (k11 K)); auto. rewrite Rmult_0_r.
        replace (k11 K * (k11 K * (x * x) + 2 * k12 K * (x * y) + k22 K * (y * y)))
          with ((k11 K * x + k12 K * y) ^ 2 + (k11 K * k22 K - k12 K ^ 2) * (y * y)) by ring.
        assert (0 <= (k11 K * x + k12 K * y) ^ 2) by apply pow2_ge_0. assert (0 <= (k11 K * k22 K - k12 K ^ 2) * (y * y)) by (apply Rmult_le_pos; [lra|nra]). lra.
    Qed.
    Lemma slopes_pos s a : s = 1 \/ s = -1 -> 0 <= k11 K * gs (fun js => slope 0 a js * slope 0 a js) + s * (2 * k12 K * gs (fun js => slope 0 a js * slope 1 a js)) + k22 K * gs (fun js => slope 1 a js * slope 1 a js).
    Proof.
      intros Hs. replace (k11 K * gs (fun js => slope 0 a js * slope 0 a js) + s * (2 * k12 K * gs (fun js => slope 0 a js * slope 1 a js)) + k22 K * gs (fun js => slope 1 a js * slope 1 a js))
        with (gs (fun js => (k11 K * (slope 0 a js * slope 0 a js) + s * (2 * k12 K) * (slope 0 a js * slope 1 a js)) + k22 K * (slope 1 a js * slope 1 a js))).
      - apply gs_nonneg. intros js _. destruct Hs as [-> | ->]; [pose proof (tensor_pos (slope 0 a js) (slope 1 a js)); lra|].
        pose proof (tensor_pos (- slope 0 a js) (slope 1 a js)). lra.
      - rewrite gs_add, gs_add, !gs_scale. ring.
    Qed.
    Lemma form_pos a : 0 <= form a a.
    Proof.
      destruct HK as (P1 & P2 & _). pose proof (slopes_pos 1 a (or_introl eq_refl)) as H.
      pose proof (slope_fore 0 a ltac:(lia)) as F0. pose proof (slope_fore 1 a ltac:(lia)) as F1.
      apply (Rmult_le_compat_l (k11 K)) in F0; auto. apply (Rmult_le_compat_l (k22 K)) in F1; auto. unfold form. lra.
    Qed.
    Definition stiffness : R := 4 * (k11 K / h 0%nat ^ 2 + k22 K / h 1%nat ^ 2).
    Lemma form_bound a : form a a <= stiffness * dot shape a a.
    Proof.
      destruct HK as (P1 & P2 & _). pose proof (slopes_pos (-1) a (or_intror eq_refl)) as H.
      pose proof (slope_mid 0 a ltac:(lia)) as F0. pose proof (slope_mid 1 a ltac:(lia)) as F1.
      pose proof (mid_fore 0 a ltac:(lia)) as M0. pose proof (mid_fore 1 a ltac:(lia)) as M1.
      apply (Rmult_le_compat_l (k11 K)) in F0; auto. apply (Rmult_le_compat_l (k22 K)) in F1; auto.
      apply (f_equal (fun r => k11 K * r)) in M0. apply (f_equal (fun r => k22 K * r)) in M1.
      unfold stiffness, dot, form. set (N := gs (fun js => a js * a js)) in *.
      replace (4 * (k11 K / h 0%nat ^ 2 + k22 K / h 1%nat ^ 2) * N) with (k11 K * (4 / h 0%nat ^ 2 * N) + k22 K * (4 / h 1%nat ^ 2 * N)) by (unfold Rdiv; ring).
      lra.
    Qed.
    (** an explicit step does not increase the norm *)
    Lemma constant_step (dt : R) a : 0 <= dt -> dt * stiffness <= 2 ->
      norm (dot shape) (@vadd RF (list nat) a (@vscale RF (list nat) dt (A a))) <= norm (dot shape) a.
    Proof.
      intros P C. pose proof (dot_inner shape) as IP. unfold norm. apply sqrt_le_1_alt.
      set (b := A a).
      assert (E : dot shape (@vadd RF (list nat) a (@vscale RF (list nat) dt b)) (@vadd RF (list nat) a (@vscale RF (list nat) dt b))
        = dot shape a a + 2 * dt * dot shape a b + dt ^ 2 * dot shape b b).
      { rewrite (ip_add _ IP), (ip_scale _ IP), !(ipr_add _ IP), !(ipr_scale _ IP), (ip_sym _ IP b a). ring. }
      rewrite E. unfold b at 1. rewrite form_ok.
      (* the form at a + (dt / 2) A a *)
      set (w := @vadd RF (list nat) a (@vscale RF (list nat) (dt / 2)%R b)).
      assert (Q : form w w = form a a - dt * dot shape b b + (dt / 2) ^ 2 * form b b).
      { assert (X : form w w = - dot shape w (A w)) by (rewrite form_ok; ring). rewrite X. unfold w.
        destruct (spread_linear constant5) as [L1 L2]. rewrite L1, L2. fold b.
        rewrite (ip_add _ IP), (ip_scale _ IP), !(ipr_add _ IP), !(ipr_scale _ IP).
        assert (Y : dot shape a (A b) = dot shape b b).
        { rewrite form_ok, form_sym. symmetry. exact (form_ok a b). }
        rewrite Y, form_ok. assert (Z : dot shape a b = - form a a) by apply form_ok. rewrite Z. field. }
      pose proof (form_pos w) as F1. pose proof (form_bound b) as F2. rewrite Q in F1.
      pose proof (ip_pos _ IP b) as PB. assert (P2 : 0 <= (dt / 2) ^ 2) by apply pow2_ge_0.
      apply (Rmult_le_compat_l ((dt / 2) ^ 2)) in F2; auto.
      assert (F3 : (dt / 2) ^ 2 * (stiffness * dot shape b b) <= dt / 2 * dot shape b b).
      { replace ((dt / 2) ^ 2 * (stiffness * dot shape b b)) with (dt * stiffness * (dt / 4 * dot shape b b)) by field.
        replace (dt / 2 * dot shape b b) with (2 * (dt / 4 * dot shape b b)) by field. apply Rmult_le_compat_r; auto. apply Rmult_le_pos; auto. lra. }
      assert (F4 : dt / 2 * dot shape b b <= form a a) by lra. apply (Rmult_le_compat_l (2 * dt)) in F4; [|lra]. fold b.
      replace (2 * dt * (dt / 2 * dot shape b b)) with (dt ^ 2 * dot shape b b) in F4 by field. lra.
    Qed.
  End Constant.

  (** ** diagonal tensors *)
  Section Diagonal.
    Variable c : coefs (list nat -> R).
    Hypothesis C11 : forall js, in_range shape js -> c11 c js = 0.
    Hypothesis C10 : forall js, in_range shape js -> h 0%nat * Rabs (c10 c js) <= 2 * c20 c js.
    Hypothesis C01 : forall js, in_range shape js -> h 1%nat * Rabs (c01 c js) <= 2 * c02 c js.
    Lemma diagonal_step (dt lo hi : R) a : 0 <= dt -> (forall js, in_range shape js -> dt * (2 * c20 c js / h 0%nat ^ 2 + 2 * c02 c js / h 1%nat ^ 2) <= 1) ->
      (forall js, in_range shape js -> lo <= a js <= hi) -> forall js, in_range shape js -> lo <= a js + dt * spread c a js <= hi.
    Proof.
      intros P C B js H. unfold spread. rewrite cut_in by auto. unfold value5. rewrite C11, Rmult_0_l, Rplus_0_r by auto.
      unfold AdvectSpec.slope, DiffuseSpec.curve. pose proof h0 as P0. pose proof h1 as P1.
      specialize (C js H). specialize (C10 js H). specialize (C01 js H).
      pose proof (B js H) as B0. pose proof (B _ (next_in shape 0 js ltac:(lia) H)) as B1. pose proof (B _ (prev_in shape 0 js ltac:(lia) H)) as B2.
      pose proof (B _ (next_in shape 1 js ltac:(lia) H)) as B3. pose proof (B _ (prev_in shape 1 js ltac:(lia) H)) as B4.
      set (x0 := h 0%nat) in *. set (x1 := h 1%nat) in *. set (p := c20 c js) in *. set (q := c02 c js) in *. set (r := c10 c js) in *. set (s := c01 c js) in *.
      assert (R1 : - (2 * p) <= x0 * r <= 2 * p) by (rewrite <- (Rabs_pos_eq x0) in C10 by lra; rewrite <- Rabs_mult in C10; apply abs_between; exact C10).
      assert (R2 : - (2 * q) <= x1 * s <= 2 * q) by (rewrite <- (Rabs_pos_eq x1) in C01 by lra; rewrite <- Rabs_mult in C01; apply abs_between; exact C01).
      assert (I0 : 0 < / x0 ^ 2) by (apply Rinv_0_lt_compat, pow_lt; auto). assert (I1 : 0 < / x1 ^ 2) by (apply Rinv_0_lt_compat, pow_lt; auto).
      set (w1 := dt * (/ x0 ^ 2 * (p + x0 * r / 2))). set (w2 := dt * (/ x0 ^ 2 * (p - x0 * r / 2))).
      set (w3 := dt * (/ x1 ^ 2 * (q + x1 * s / 2))). set (w4 := dt * (/ x1 ^ 2 * (q - x1 * s / 2))). set (w0 := 1 - w1 - w2 - w3 - w4).
      assert (W1 : 0 <= w1) by (repeat apply Rmult_le_pos; lra). assert (W2 : 0 <= w2) by (repeat apply Rmult_le_pos; lra).
      assert (W3 : 0 <= w3) by (repeat apply Rmult_le_pos; lra). assert (W4 : 0 <= w4) by (repeat apply Rmult_le_pos; lra).
      assert (W0 : 0 <= w0).
      { unfold w0, w1, w2, w3, w4. replace (dt * (2 * p / x0 ^ 2 + 2 * q / x1 ^ 2)) with (dt * (/ x0 ^ 2 * (2 * p)) + dt * (/ x1 ^ 2 * (2 * q))) in C by (unfold Rdiv; ring). lra. }
      set (a0 := a js) in *. set (a1 := a (next shape 0 js)) in *. set (a2 := a (prev shape 0 js)) in *. set (a3 := a (next shape 1 js)) in *. set (a4 := a (prev shape 1 js)) in *.
      match goal with |- lo <= ?e <= hi => replace e with (w0 * a0 + w1 * a1 + w2 * a2 + w3 * a3 + w4 * a4) by (unfold w0, w1, w2, w3, w4; field; lra) end.
      assert (El : lo = w0 * lo + w1 * lo + w2 * lo + w3 * lo + w4 * lo) by (unfold w0; ring). assert (Eh : hi = w0 * hi + w1 * hi + w2 * hi + w3 * hi + w4 * hi) by (unfold w0; ring).
      destruct B0, B1, B2, B3, B4.
      split; [rewrite El | apply Rle_trans with (w0 * hi + w1 * hi + w2 * hi + w3 * hi + w4 * hi); [|lra]]; repeat apply Rplus_le_compat; apply Rmult_le_compat_l; auto.
    Qed.
  End Diagonal.
End Operator.
