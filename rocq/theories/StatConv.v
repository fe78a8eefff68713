(** Convergence of the centred scheme for several fields, carried by the same winds and mixed by a matrix. *)
From Coq Require Import List Arith ZArith Bool Reals String Lia Lra Psatz Permutation FunctionalExtensionality.
From Verif Require Import PyBase PyBaseFacts Scalars FieldFacts FDExprModel FDExprSpec FDExprProofs FDSpec FDReal GridModel GridSpec GridProofs GridMore ConsistSpec ConsistProofs ConsistMain
  SchemesModel SchemesSpec LineConv EnergySpec EnergyProofs AdvectModel AdvectSpec AdvectTrend AdvectGrid AdvectConv WindNorm WindGrid WindSpec WindConv WindMain StatInverse.
Import ListNotations.
Open Scope R_scope.

(** [q] fields, D_t u_i = - w . grad u_i + sum_j z_ij u_j *)
Record evolutions (q n : nat) (lengths : list R) (w : nat -> point -> R) (z : nat -> nat -> point -> R) (t0 t1 : R) (u : nat -> nat -> R -> multi -> point -> R) : Prop := {
  es_space : forall i m t, (i < q)%nat -> t0 <= t <= t1 -> derivatives_of n (u i m t);
  es_time : forall i m a t p, (i < q)%nat -> t0 <= t <= t1 -> derivable_pt_lim (fun s => u i m s a p) t (u i (S m) t a p);
  es_equation : forall i t p, (i < q)%nat -> t0 <= t <= t1 -> u i 1%nat t none p = carried_by n w (u i O t) p + sumk q (fun j => z i j p * u j O t none p);
  es_period : forall i t, (i < q)%nat -> t0 <= t <= t1 -> periodic lengths (u i O t none);
  es_bounded : forall i m a, (i < q)%nat -> exists B, forall t p, t0 <= t <= t1 -> Rabs (u i m t a p) <= B }.

Section Solution.
  Variables (q n : nat) (lengths : list R) (w : nat -> point -> R) (z : nat -> nat -> point -> R) (t0 t1 : R) (u : nat -> nat -> R -> multi -> point -> R).
  Hypothesis EV : evolutions q n lengths w z t0 t1 u.
  Hypothesis H01 : t0 < t1.
  Lemma es_all i m : (i < q)%nat -> forall t p, t0 <= t <= t1 -> u i (S m) t none p = carried_by n w (u i m t) p + sumk q (fun j => z i j p * u j m t none p).
  Proof.
    intros Hi. induction m as [|m IH]; intros t p Ht; [apply (es_equation _ _ _ _ _ _ _ _ EV); auto|].
    apply (lim_unique (fun s => u i (S m) s none p) (fun s => carried_by n w (u i m s) p + sumk q (fun j => z i j p * u j m s none p)) t0 t1 t); auto.
    - apply (es_time _ _ _ _ _ _ _ _ EV); auto.
    - apply (derivable_pt_lim_plus (fun s => carried_by n w (u i m s) p) (fun s => sumk q (fun j => z i j p * u j m s none p))).
      + rewrite carried_sumk. apply (derivable_pt_lim_opp (fun s => sumk n (fun k => w k p * u i m s (inc k none) p))).
        apply (sumk_derivable n (fun k s => w k p * u i m s (inc k none) p) (fun k s => w k p * u i (S m) s (inc k none) p)). intros k Hk.
        apply (derivable_pt_lim_scal (fun s => u i m s (inc k none) p)). apply (es_time _ _ _ _ _ _ _ _ EV); auto.
      + apply (sumk_derivable q (fun j s => z i j p * u j m s none p) (fun j s => z i j p * u j (S m) s none p)). intros j Hj.
        apply (derivable_pt_lim_scal (fun s => u j m s none p)). apply (es_time _ _ _ _ _ _ _ _ EV); auto.
  Qed.
  Lemma es_periodic i m : (i < q)%nat -> forall t, t0 <= t <= t1 -> periodic lengths (u i m t none).
  Proof.
    intros Hi. induction m as [|m IH]; intros t Ht; [apply (es_period _ _ _ _ _ _ _ _ EV); auto|].
    intros k p L HL. apply (lim_unique (fun s => u i m s none (@at_coord RF p k (p k + L)%R)) (fun s => u i m s none p) t0 t1 t); auto.
    - intros s Hs. apply (IH s Hs k p L HL).
    - apply (es_time _ _ _ _ _ _ _ _ EV); auto.
    - apply (es_time _ _ _ _ _ _ _ _ EV); auto.
  Qed.
  (** a common bound of finitely many functions *)
  Lemma finite_bound (P : nat -> R -> Prop) N : (forall k B B', P k B -> B <= B' -> P k B') -> (forall k, (k < N)%nat -> exists B, P k B) -> exists B, 0 <= B /\ forall k, (k < N)%nat -> P k B.
  Proof.
    intros M H. induction N as [|N IH]; [exists 0; split; [lra|intros; lia]|]. destruct IH as (B & PB & HB); [intros; apply H; lia|]. destruct (H N ltac:(lia)) as (C & HC).
    exists (Rmax B (Rabs C)). split; [apply Rle_trans with B; auto; apply Rmax_l|]. intros k Hk. destruct (Nat.eq_dec k N) as [->|Nk].
    - apply (M N C); auto. apply Rle_trans with (Rabs C); [apply Rle_abs|apply Rmax_r].
    - apply (M k B); [apply HB; lia|apply Rmax_l].
  Qed.
  Lemma all_bounds (f : nat -> multi) N M : exists B, 0 <= B /\ forall k i m t p, (k < N)%nat -> (i < q)%nat -> (m < M)%nat -> t0 <= t <= t1 -> Rabs (u i m t (f k) p) <= B.
  Proof.
    destruct (finite_bound (fun k B => forall i m t p, (i < q)%nat -> (m < M)%nat -> t0 <= t <= t1 -> Rabs (u i m t (f k) p) <= B) N) as (B & PB & HB).
    - intros k B B' H HB i m t p Hi Hm Ht. apply Rle_trans with B; auto.
    - intros k _. destruct (finite_bound (fun i B => forall m t p, (m < M)%nat -> t0 <= t <= t1 -> Rabs (u i m t (f k) p) <= B) q) as (B & PB & HB).
      + intros i B B' H HB m t p Hm Ht. apply Rle_trans with B; auto.
      + intros i Hi. destruct (finite_bound (fun m B => forall t p, t0 <= t <= t1 -> Rabs (u i m t (f k) p) <= B) M) as (B & PB & HB).
        * intros m B B' H HB t p Ht. apply Rle_trans with B; auto.
        * intros m _. apply (es_bounded _ _ _ _ _ _ _ _ EV); auto.
        * exists B. intros m t p Hm Ht. apply HB; auto.
      + exists B. intros i m t p Hi Hm Ht. apply HB; auto.
    - exists B. split; [exact PB|]. intros k i m t p Hk Hi Hm Ht. apply HB; auto.
  Qed.
End Solution.

(** ** arrays of several fields *)
Definition wide (W : nat -> list nat -> R) (k : nat) (idx : list nat) : R := match k, idx with S k, _ :: js => W k js | _, _ => 0 end.
Definition widen (V : nat -> R) (k : nat) : R := match k with S k => V k | O => 0 end.
Definition mixed (q : nat) (Z : nat -> nat -> list nat -> R) (a : list nat -> R) (idx : list nat) : R :=
  match idx with i :: js => sumk q (fun j => Z i j js * a (j :: js)) | [] => 0 end.
Definition row_of (a : list nat -> R) (i : nat) : list nat -> R := fun js => a (i :: js).
Lemma over_cons q shape f : over_axes (q :: shape) f = f O + over_axes shape (fun k => f (S k)).
Proof. unfold over_axes. cbn [List.length seq map fold_right]. rewrite <- seq_shift, map_map. reflexivity. Qed.
Lemma slope_cons L lengths q shape k a i js : slope (L :: lengths) (q :: shape) (S k) a (i :: js) = slope lengths shape k (row_of a i) js.
Proof. reflexivity. Qed.
Lemma fsum_S m (f : nat -> R) : @fsum RF (S m) f = @fsum RF m f + f m.
Proof. reflexivity. Qed.
Lemma fsum_R m (f : nat -> R) : @fsum RF m f = sumk m f.
Proof. induction m as [|m IH]; [reflexivity|]. rewrite fsum_S, sumk_S, IH. reflexivity. Qed.
Lemma gs_cons q shape (f : list nat -> R) : GS (q :: shape) f = sumk q (fun i => GS shape (fun js => f (i :: js))).
Proof. unfold GS. cbn [gsum]. apply fsum_R. Qed.

Section Rows.
  Variables (q : nat) (lengths : list R) (shape : list nat) (W : nat -> list nat -> R) (Z : nat -> nat -> list nat -> R) (V L : nat -> R) (zeta : R).
  Hypothesis Hq : (0 < q)%nat.
  Hypothesis Hd : forall k, (k < List.length shape)%nat -> 0 < step_of lengths shape k.
  Hypothesis NE : exists js, in_range shape js.
  Hypothesis HV : forall k js, (k < List.length shape)%nat -> in_range shape js -> Rabs (W k js) <= V k.
  Hypothesis HL : forall k js, (k < List.length shape)%nat -> in_range shape js -> Rabs (W k (next shape k js) - W k js) <= L k * step_of lengths shape k.
  Hypothesis HZ : forall i j js, (i < q)%nat -> (j < q)%nat -> in_range shape js -> Rabs (Z i j js) <= zeta.
  Notation lengths' := (1 :: lengths).
  Notation shape' := (q :: shape).
  Notation nrm := (norm (dot shape')).
  Notation zero := (fun _ : list nat => 0).
  Lemma Hd' k : (k < List.length shape')%nat -> 0 < step_of lengths' shape' k.
  Proof.
    intros Hk. destruct k as [|k]; [|apply Hd; cbn in Hk; lia]. unfold step_of. cbn [nth]. apply Rdiv_lt_0_compat; [lra|]. apply lt_0_INR. exact Hq.
  Qed.
  Lemma NE' : exists idx, in_range shape' idx.
  Proof. destruct NE as (js & H). exists (O :: js). constructor; auto. Qed.
  Lemma HV' k idx : (k < List.length shape')%nat -> in_range shape' idx -> Rabs (wide W k idx) <= widen V k.
  Proof. intros Hk H. inversion H; subst. destruct k as [|k]; cbn [wide widen]; [rewrite Rabs_R0; lra|]. apply HV; auto. cbn in Hk. lia. Qed.
  Lemma HL' k idx : (k < List.length shape')%nat -> in_range shape' idx -> Rabs (wide W k (next shape' k idx) - wide W k idx) <= widen L k * step_of lengths' shape' k.
  Proof.
    intros Hk H. inversion H; subst. destruct k as [|k].
    - cbn [wide widen]. rewrite Rminus_0_r, Rabs_R0. lra.
    - apply (HL k l'); auto. cbn in Hk. lia.
  Qed.
  Lemma courant_wide : courant lengths' shape' (widen V) = courant lengths shape V.
  Proof. unfold courant. rewrite over_cons. cbn [widen]. unfold Rdiv at 1. rewrite Rmult_0_l, Rplus_0_l. reflexivity. Qed.
  Definition vflow (a : list nat -> R) : list nat -> R := cut shape' (fun idx => transported lengths' shape' (wide W) a idx + mixed q Z a idx).
  Lemma transported_row a i js : transported lengths' shape' (wide W) a (i :: js) = transported lengths shape W (row_of a i) js.
  Proof. unfold transported. rewrite over_cons. cbn [wide]. rewrite Rmult_0_l, Rplus_0_l. reflexivity. Qed.
  Lemma mixed_lin (c d : R) (a b : list nat -> R) idx : mixed q Z (fun i => c * a i + d * b i) idx = c * mixed q Z a idx + d * mixed q Z b idx.
  Proof. destruct idx as [|i js]; cbn [mixed]; [ring|]. rewrite <- !sumk_scale, <- sumk_plus. apply sumk_ext. intros; ring. Qed.
  Lemma vflow_linear : @linear RF (list nat) (list nat) vflow.
  Proof. apply (linear_of shape' (fun a idx => transported lengths' shape' (wide W) a idx + mixed q Z a idx)). intros. rewrite transported_lin, mixed_lin. ring. Qed.
  Lemma zeta_pos : 0 <= zeta.
  Proof. destruct NE as (js & H). eapply Rle_trans; [apply Rabs_pos|apply (HZ O O js); auto]. Qed.
  Lemma row_norm (a : list nat -> R) j : (j < q)%nat -> nrm (fun idx => match idx with _ :: js => a (j :: js) | [] => 0 end) <= sqrt (INR q) * nrm a.
  Proof.
    intros Hj. unfold norm. rewrite <- sqrt_mult_alt by apply pos_INR. apply sqrt_le_1_alt. unfold dot. rewrite !gs_cons.
    set (G := fun i => GS shape (fun js => a (i :: js) * a (i :: js))).
    assert (P : forall i, 0 <= G i) by (intros i; apply gs_nonneg; intros; apply Rle_0_sqr).
    change (sumk q (fun _ => G j) <= INR q * sumk q G).
    assert (E : forall m, sumk m (fun _ => G j) = INR m * G j). { intros m. induction m as [|m IH]; [cbn; unfold sumk; cbn; ring|]. rewrite sumk_S, IH, S_INR. ring. }
    rewrite E. apply Rmult_le_compat_l; [apply pos_INR|]. apply below_sum; auto.
  Qed.
  Lemma norm_sumk N (f : nat -> list nat -> R) : nrm (fun idx => sumk N (fun k => f k idx)) <= sumk N (fun k => nrm (f k)).
  Proof.
    unfold sumk. induction (seq 0 N) as [|k l IH]; cbn [map fold_right].
    - apply Req_le. apply (norm_zero (dot shape') (dot_inner shape')). reflexivity.
    - eapply Rle_trans; [apply (norm_plus shape' (f k))|]. lra.
  Qed.
  Definition mixing : R := INR q * (zeta * sqrt (INR q)).
  Lemma mixing_pos : 0 <= mixing.
  Proof. apply Rmult_le_pos; [apply pos_INR|]. apply Rmult_le_pos; [apply zeta_pos|apply sqrt_pos]. Qed.
  Lemma mixed_norm a : nrm (mixed q Z a) <= mixing * nrm a.
  Proof.
    pose proof zeta_pos as Pz.
    apply Rle_trans with (nrm (fun idx => sumk q (fun j => match idx with i :: js => Z i j js * a (j :: js) | [] => 0 end))).
    { apply Req_le, norm_ext. intros idx H. inversion H; subst. reflexivity. }
    eapply Rle_trans; [apply norm_sumk|].
    apply Rle_trans with (sumk q (fun _ => zeta * (sqrt (INR q) * nrm a))).
    - eapply Rle_trans; [apply Rle_abs|]. apply sumk_bound. intros j Hj. rewrite Rabs_pos_eq by apply norm_pos.
      eapply Rle_trans; [|apply Rmult_le_compat_l; [exact Pz|apply (row_norm a j Hj)]].
      rewrite <- (Rabs_pos_eq zeta Pz) at 1. rewrite <- (norm_times shape'). apply norm_mono. intros idx H. inversion H; subst.
      rewrite !Rabs_mult. apply Rmult_le_compat_r; [apply Rabs_pos|]. rewrite (Rabs_pos_eq zeta) by auto. apply HZ; auto.
    - assert (E : forall m x, sumk m (fun _ => x) = INR m * x). { intros m x. induction m as [|m IH]; [cbn; unfold sumk; cbn; ring|]. rewrite sumk_S, IH, S_INR. ring. }
      rewrite E. unfold mixing. apply Req_le. ring.
  Qed.
  Definition vshear : R := shear shape' (widen L) 0 + mixing.
  Lemma zero_small idx : in_range shape' idx -> Rabs (zero idx) <= 0.
  Proof. intros _. cbv beta. rewrite Rabs_R0. lra. Qed.
  Lemma vshear_pos : 0 <= vshear.
  Proof.
    pose proof (shear_nonneg lengths' shape' Hd' NE' (wide W) zero (widen L) 0 HL' zero_small). pose proof mixing_pos. unfold vshear. lra.
  Qed.
  Notation skew := (skewed lengths' shape' (wide W)).
  Lemma vbounded a : nrm (vsub (vflow a) (skew a)) <= vshear * nrm a.
  Proof.
    apply Rle_trans with (nrm (fun idx => vsub (flowz lengths' shape' (wide W) zero a) (skew a) idx + mixed q Z a idx)).
    - apply Req_le, norm_ext. intros idx H. unfold vsub, vadd, vscale. cbn [fadd fmul RF F]. unfold vflow, flowz. rewrite !cut_in by auto. ring.
    - eapply Rle_trans; [apply (norm_plus shape' (vsub (flowz lengths' shape' (wide W) zero a) (skew a)))|]. unfold vshear. rewrite Rmult_plus_distr_r. apply Rplus_le_compat; [|apply mixed_norm].
      exact (bounded_part lengths' shape' Hd' NE' (wide W) zero (widen L) 0 HL' zero_small a).
  Qed.
  Lemma vcourant_pos : 0 <= courant lengths shape V.
  Proof. rewrite <- courant_wide. exact (courant_nonneg lengths' shape' Hd' NE' (wide W) (widen V) HV'). Qed.
  Lemma vskew_norm : at_most (dot shape') skew (courant lengths shape V).
  Proof.
    apply (norm_at_most (dot shape') (dot_inner shape')); [apply vcourant_pos|]. intros a. rewrite <- courant_wide. exact (skewed_norm lengths' shape' Hd' NE' (wide W) (widen V) HV' a).
  Qed.
  Theorem vflow_rk4 (dt : R) a : 0 <= dt -> dt * courant lengths shape V <= 2 * sqrt 2 ->
    nrm (@exp_taylor RF (list nat) vflow dt 4 a) <= (1 + dt * vshear * exp (2 * sqrt 2 + dt * vshear)) * nrm a.
  Proof.
    intros Ht C. pose proof vshear_pos as PS.
    pose proof (rk4_grows (dot shape') (dot_inner shape') vflow skew (courant lengths shape V) vshear vflow_linear (skewed_linear lengths' shape' (wide W)) (skewed_conservative lengths' shape' Hd' (wide W))
      vskew_norm vcourant_pos PS vbounded dt Ht a C) as G.
    eapply Rle_trans; [exact G|]. apply Rmult_le_compat_r; [apply norm_pos|]. apply Rplus_le_compat_l. apply Rmult_le_compat_l; [apply Rmult_le_pos; auto|].
    rewrite Rmult_plus_distr_l. apply exp_le. lra.
  Qed.
  Lemma vflow_norm a : nrm (vflow a) <= (courant lengths shape V + vshear) * nrm a.
  Proof. exact (split_norm (dot shape') (dot_inner shape') vflow skew (courant lengths shape V) vshear vskew_norm vcourant_pos vbounded a). Qed.
End Rows.

(** ** the error of a step *)
Lemma in_cons q shape idx : in_range (q :: shape) idx -> exists i js, idx = i :: js /\ (i < q)%nat /\ in_range shape js.
Proof. intros H. destruct idx as [|i js]; inversion H; subst. exists i, js. auto. Qed.
Section OnGrid.
  Variables (q : nat) (lengths : list R) (w : nat -> point -> R) (z : nat -> nat -> point -> R) (t0 t1 : R) (u : nat -> nat -> R -> multi -> point -> R) (V L : nat -> R) (zeta kz : R).
  Notation n := (List.length lengths).
  Hypothesis Hq : (0 < q)%nat.
  Hypothesis VW : variable_winds n lengths w V L.
  Hypothesis EV : evolutions q n lengths w z t0 t1 u.
  Definition vb : R := / 2 * sumk n L + mixing q zeta.
  Notation kappa := (2 * sqrt 2 + (t1 - t0) * vb).
  Definition samples (shape : list nat) (f : nat -> point -> R) : list nat -> R :=
    cut (q :: shape) (fun idx => match idx with i :: js => f i (grid_point (spacings lengths shape) js) | [] => 0 end).

  Section Shape.
    Variables (shape : list nat) (Z : nat -> nat -> list nat -> R) (hm : R).
    Hypothesis Ls : List.length shape = n.
    Hypothesis Hn : forall m, In m shape -> m <> O.
    Hypothesis Hd : forall k, (k < List.length shape)%nat -> 0 < step_of lengths shape k.
    Hypothesis Hh : forall k, (k < n)%nat -> dxf lengths shape k <= hm.
    Hypothesis HZ : forall i j js, (i < q)%nat -> (j < q)%nat -> in_range shape js -> Rabs (Z i j js) <= zeta.
    Hypothesis HZc : forall i j js, (i < q)%nat -> (j < q)%nat -> in_range shape js -> Rabs (Z i j js - z i j (grid_point (spacings lengths shape) js)) <= kz * hm ^ 2.
    Notation dxl := (spacings lengths shape).
    Notation W := (fun k => sample dxl (w k)).
    Notation A := (vflow q lengths shape W Z).
    Notation nrm := (norm (dot (q :: shape))).
    Notation ex := (fun m t => samples shape (fun i => u i m t none)).
    Let NEs := NE shape Hn.
    Let SG := speed_grid lengths w V L VW shape Ls.
    Let LG := shear_grid lengths w V L VW shape Ls Hn Hd.
    Lemma vshear_b : vshear q shape L zeta = vb.
    Proof. unfold vshear, shear, vb. rewrite over_cons. cbn [widen]. rewrite (over_sumk lengths shape Ls). change (fun k => L k) with L. lra. Qed.
    Lemma vb_pos : 0 <= vb.
    Proof. rewrite <- vshear_b. exact (vshear_pos q lengths shape W Z L zeta Hq Hd NEs LG HZ). Qed.
    Lemma samples_in f i js : (i < q)%nat -> in_range shape js -> samples shape f (i :: js) = f i (grid_point dxl js).
    Proof. intros Hi H. unfold samples. rewrite cut_in by (constructor; auto). reflexivity. Qed.
    Lemma vgrowth_step (dt : R) a : 0 <= dt <= t1 - t0 -> dt * courant lengths shape V <= 2 * sqrt 2 ->
      nrm (@exp_taylor RF (list nat) A dt 4 a) <= (1 + dt * (vb * exp kappa)) * nrm a.
    Proof.
      intros Ht C. eapply Rle_trans; [apply (vflow_rk4 q lengths shape W Z V L zeta Hq Hd NEs SG LG HZ dt a); [lra|exact C]|].
      apply Rmult_le_compat_r; [apply norm_pos|]. apply Rplus_le_compat_l. rewrite vshear_b. pose proof vb_pos as Pb. rewrite Rmult_assoc. apply Rmult_le_compat_l; [lra|].
      apply Rmult_le_compat_l; auto. apply exp_le. apply Rplus_le_compat_l, Rmult_le_compat_r; lra.
    Qed.
    Lemma vconsistent B0 B3 m t idx : t0 < t1 -> t0 <= t <= t1 -> in_range (q :: shape) idx -> (forall i p, (i < q)%nat -> Rabs (u i m t none p) <= B0) ->
      (forall k i p, (k < n)%nat -> (i < q)%nat -> Rabs (u i m t (addm none (only k 3)) p) <= B3) ->
      Rabs (A (ex m t) idx - ex (S m) t idx) <= (sumk n (fun k => V k / 6 * B3) + INR q * (kz * B0)) * hm ^ 2.
    Proof.
      intros H01 Ht H HB0 HB3. destruct (in_cons _ _ _ H) as (i & js & -> & Hi & Hj). unfold vflow. rewrite cut_in by auto. rewrite transported_row. cbn [mixed]. rewrite samples_in by auto.
      unfold transported. rewrite (over_sumk lengths shape Ls).
      set (p := grid_point dxl js). rewrite (es_all q n lengths w z t0 t1 u EV H01 i m Hi t p Ht), carried_sumk.
      assert (Es : forall k, (k < n)%nat -> W k js * slope lengths shape k (row_of (ex m t) i) js = w k p * @partial RF (dxf lengths shape) k 1 (u i m t none) p).
      { intros k Hk. unfold sample at 1. fold p. f_equal.
        rewrite (slope_ext lengths shape k _ (sample dxl (u i m t none)) js) by (auto; try lia; intros; unfold row_of; rewrite samples_in by auto; reflexivity).
        apply slope_sample; auto; [lia|]. apply (es_periodic q n lengths w z t0 t1 u EV H01); auto. }
      rewrite (sumk_ext n _ _ Es).
      rewrite (sumk_ext q (fun j => Z i j js * ex m t (j :: js)) (fun j => Z i j js * u j m t none p)) by (intros j Hj'; rewrite samples_in by auto; reflexivity).
      match goal with |- Rabs (- ?S1 + ?M1 - (- ?S2 + ?M2)) <= _ => replace (- S1 + M1 - (- S2 + M2)) with (- (S1 - S2) + (M1 - M2)) by ring end.
      eapply Rle_trans; [apply Rabs_triang|]. rewrite Rabs_Ropp, Rmult_plus_distr_r. apply Rplus_le_compat.
      - rewrite sumk_minus, Rmult_comm, <- sumk_scale. apply sumk_bound. intros k Hk. rewrite <- Rmult_minus_distr_l, Rabs_mult.
        assert (Pd : 0 < dxf lengths shape k) by (rewrite dxf_step by (auto; lia); apply Hd; lia).
        pose proof (partial_consistent n (u i m t) (es_space _ _ _ _ _ _ _ _ EV i m t Hi Ht) (dxf lengths shape) k 1 none B3 p Hk Pd (fun x => HB3 k i x Hk Hi)) as Q.
        rewrite inc_only in Q. change (INR 1) with 1 in Q.
        assert (PB : 0 <= B3) by (eapply Rle_trans; [apply Rabs_pos|apply (HB3 k i p Hk Hi)]).
        assert (S2 : dxf lengths shape k ^ 2 <= hm ^ 2) by (apply pow_incr; specialize (Hh k Hk); lra).
        pose proof (vw_speed _ _ _ _ _ VW k p Hk) as SV. pose proof (Rabs_pos (w k p)) as SP.
        apply Rle_trans with (V k * (1 / 6 * B3 * hm ^ 2)); [|apply Req_le; field].
        apply Rmult_le_compat; auto; [apply Rabs_pos|]. eapply Rle_trans; [exact Q|]. apply Rmult_le_compat_l; lra.
      - rewrite sumk_minus. apply Rle_trans with (sumk q (fun _ => kz * hm ^ 2 * B0)).
        + apply sumk_bound. intros j Hj'. rewrite <- Rmult_minus_distr_r, Rabs_mult. pose proof (HZc i j js Hi Hj' Hj) as Q. fold p in Q. apply Rmult_le_compat; auto using Rabs_pos.
        + assert (E : forall m x, sumk m (fun _ => x) = INR m * x). { intros m' x. induction m' as [|m' IH]; [cbn; unfold sumk; cbn; ring|]. rewrite sumk_S, IH, S_INR. ring. }
          rewrite E. apply Req_le. ring.
    Qed.
    Lemma vexpansion_value t dt p i js : (i < q)%nat -> in_range shape js ->
      expansion (fun m => ex m t) dt p (i :: js) = taylor (fun m s => u i m s none (grid_point dxl js)) t p (t + dt).
    Proof.
      intros Hi H. induction p as [|p IH]; cbn [expansion taylor].
      - rewrite samples_in by auto. reflexivity.
      - rewrite <- IH. unfold vadd, vscale. cbn [fadd fmul RF F]. rewrite samples_in by auto. replace (t + dt - t) with dt by ring. reflexivity.
    Qed.
    Lemma vlocal_norm B0 B3 B5 t (dt : R) : t0 < t1 -> 0 <= B0 -> 0 <= B3 -> 0 <= B5 -> 0 <= kz -> t0 <= t -> 0 <= dt -> t + dt <= t1 -> dt * courant lengths shape V <= 2 * sqrt 2 ->
      (forall i m s p, (i < q)%nat -> (m < 4)%nat -> t0 <= s <= t1 -> Rabs (u i m s none p) <= B0) ->
      (forall k i m s p, (k < n)%nat -> (i < q)%nat -> (m < 4)%nat -> t0 <= s <= t1 -> Rabs (u i m s (addm none (only k 3)) p) <= B3) ->
      (forall i s p, (i < q)%nat -> t0 <= s <= t1 -> Rabs (u i 5%nat s none p) <= B5) ->
      nrm (vsub (@exp_taylor RF (list nat) A dt 4 (ex O t)) (ex O (t + dt))) <=
      sqrt (points (q :: shape)) * (dt * ((sumk n (fun k => V k / 6 * B3) + INR q * (kz * B0)) * total kappa (t1 - t0) 4 * hm ^ 2 + B5 * dt ^ 4)).
    Proof.
      intros H01 P0 P3 P5 Pk H1 H2 H3 C HB0 HB3 HB5.
      set (K := sumk n (fun k => V k / 6 * B3) + INR q * (kz * B0)).
      assert (PK : 0 <= K).
      { unfold K. apply Rplus_le_le_0_compat; [|apply Rmult_le_pos; [apply pos_INR|apply Rmult_le_pos; auto]]. rewrite <- (over_sumk lengths shape Ls). apply over_nonneg. intros k Hk.
        pose proof (V_nonneg shape NEs W V SG k Hk). apply Rmult_le_pos; lra. }
      eapply Rle_trans; [apply (norm_sub_triangle (dot (q :: shape)) (dot_inner (q :: shape)) _ (expansion (fun m => ex m t) dt 4))|].
      assert (X1 : nrm (vsub (@exp_taylor RF (list nat) A dt 4 (ex O t)) (expansion (fun m => ex m t) dt 4)) <= dt * (sqrt (points (q :: shape)) * (K * hm ^ 2)) * total kappa (t1 - t0) 4).
      { assert (Pe : 0 <= K * hm ^ 2) by (apply Rmult_le_pos; auto; nra).
        apply (step_approx (dot (q :: shape)) (dot_inner (q :: shape)) A (courant lengths shape V + vb) dt (sqrt (points (q :: shape)) * (K * hm ^ 2)) kappa (t1 - t0) (fun m => ex m t)).
        - apply vflow_linear.
        - intros a. rewrite <- vshear_b. apply (vflow_norm q lengths shape W Z V L zeta Hq Hd NEs SG LG HZ).
        - exact H2.
        - rewrite Rmult_plus_distr_l. apply Rplus_le_compat; auto. apply Rmult_le_compat_r; [apply vb_pos|lra].
        - pose proof vb_pos as Pb. pose proof (sqrt_pos 2). assert (0 <= (t1 - t0) * vb) by (apply Rmult_le_pos; lra). lra.
        - lra.
        - apply Rmult_le_pos; auto. apply sqrt_pos.
        - intros i Hi. apply norm_of_bound; auto. intros js H.
          replace (vsub (A (ex i t)) (ex (S i) t) js) with (A (ex i t) js - ex (S i) t js) by (unfold vsub, vadd, vscale; cbn [fadd fmul RF F]; cbn; ring).
          apply vconsistent; auto; [lra| |]; intros; [apply HB0; auto; lra|apply HB3; auto; lra]. }
      assert (X2 : nrm (vsub (expansion (fun m => ex m t) dt 4) (ex O (t + dt))) <= sqrt (points (q :: shape)) * (B5 * (dt ^ 5))).
      { apply norm_of_bound; [apply Rmult_le_pos; auto; apply pow_le; auto|]. intros idx H. destruct (in_cons _ _ _ H) as (i & js & -> & Hi & Hj). set (p := grid_point dxl js).
        assert (Ev : vsub (expansion (fun m => ex m t) dt 4) (ex O (t + dt)) (i :: js) = - (u i O (t + dt) none p - taylor (fun m s => u i m s none p) t 4 (t + dt))).
        { pose proof (vexpansion_value t dt 4 i js Hi Hj) as Q. fold p in Q. rewrite <- Q. unfold vsub. set (e := expansion _ dt 4). unfold vadd, vscale. cbn [fadd fmul RF F]. rewrite samples_in by auto. fold p. ring. }
        rewrite Ev, Rabs_Ropp.
        pose proof (taylor_bound t (t + dt) B5 4 ltac:(lra) (fun m s => u i m s none p)) as T. cbv beta in T.
        eapply Rle_trans; [apply T; [| |lra]|].
        - intros k s _ Hs. apply (es_time _ _ _ _ _ _ _ _ EV); auto. lra.
        - intros s Hs. apply HB5; auto. lra.
        - replace (t + dt - t) with dt by ring. apply Rmult_le_compat_l; auto. assert (0 <= dt ^ 5) by (apply pow_le; auto).
          replace (INR (fact 5)) with 120 by (cbn; ring). lra. }
      eapply Rle_trans; [apply Rplus_le_compat; [exact X1|exact X2]|]. apply Req_le. cbn [pow]. ring.
    Qed.
  End Shape.

  Lemma local_fields : t0 < t1 -> 0 <= kz -> exists C, 0 <= C /\ forall shape Z hm t dt, List.length shape = n -> (forall m, In m shape -> m <> O) ->
    (forall k, (k < List.length shape)%nat -> 0 < step_of lengths shape k) -> (forall k, (k < n)%nat -> dxf lengths shape k <= hm) ->
    (forall i j js, (i < q)%nat -> (j < q)%nat -> in_range shape js -> Rabs (Z i j js) <= zeta) ->
    (forall i j js, (i < q)%nat -> (j < q)%nat -> in_range shape js -> Rabs (Z i j js - z i j (grid_point (spacings lengths shape) js)) <= kz * hm ^ 2) ->
    t0 <= t -> 0 <= dt -> t + dt <= t1 -> dt * courant lengths shape V <= 2 * sqrt 2 ->
    norm (dot (q :: shape)) (vsub (@exp_taylor RF (list nat) (vflow q lengths shape (fun k => sample (spacings lengths shape) (w k)) Z) dt 4
      (samples shape (fun i => u i O t none))) (samples shape (fun i => u i O (t + dt) none)))
    <= sqrt (points (q :: shape)) * (dt * (C * (dt ^ 4 + hm ^ 2))).
  Proof.
    intros H01 Pk. destruct (all_bounds q n lengths w z t0 t1 u EV (fun _ => none) 1 6) as (B0 & P0 & HB0).
    destruct (all_bounds q n lengths w z t0 t1 u EV (fun k => addm none (only k 3)) n 4) as (B3 & P3 & HB3).
    set (K := (sumk n (fun k => V k / 6 * B3) + INR q * (kz * B0)) * total kappa (t1 - t0) 4).
    exists (Rabs K + B0). split; [pose proof (Rabs_pos K); lra|]. intros shape Z hm t dt Ls Hn Hd Hh HZ HZc H1 H2 H3 C.
    eapply Rle_trans; [apply (vlocal_norm shape Z hm Ls Hn Hd Hh HZ HZc B0 B3 B0 t dt); auto|].
    - intros i m s p Hi Hm Hs. apply (HB0 O i m s p); auto.
    - intros i s p Hi Hs. apply (HB0 O i 5%nat s p); auto.
    - fold K. apply Rmult_le_compat_l; [apply sqrt_pos|]. apply Rmult_le_compat_l; auto.
      assert (K * hm ^ 2 <= Rabs K * hm ^ 2) by (apply Rmult_le_compat_r; [nra|apply Rle_abs]).
      assert (0 <= Rabs K * dt ^ 4) by (apply Rmult_le_pos; [apply Rabs_pos|apply pow_le; auto]).
      assert (0 <= B0 * hm ^ 2) by (apply Rmult_le_pos; auto; nra). lra.
  Qed.
  Definition vrate : R := vb * exp (2 * sqrt 2 + (t1 - t0) * vb).
  (** a step of the model from a state close to the solution *)
  Lemma fields_step : 0 <= kz -> exists C, 0 <= C /\ forall shape Z hm tau t dt v, List.length shape = n -> (forall m, In m shape -> m <> O) ->
    (forall k, (k < List.length shape)%nat -> 0 < step_of lengths shape k) -> (forall k, (k < n)%nat -> dxf lengths shape k <= hm) ->
    (forall i j js, (i < q)%nat -> (j < q)%nat -> in_range shape js -> Rabs (Z i j js) <= zeta) ->
    (forall i j js, (i < q)%nat -> (j < q)%nat -> in_range shape js -> Rabs (Z i j js - z i j (grid_point (spacings lengths shape) js)) <= kz * hm ^ 2) ->
    t0 <= t -> 0 <= dt <= tau -> t + dt <= t1 -> tau * courant lengths shape V <= 2 * sqrt 2 ->
    norm (dot (q :: shape)) (vsub v (samples shape (fun i => u i O t none)))
      <= sqrt (points (q :: shape)) * ((t - t0) * (C * (tau ^ 4 + hm ^ 2)) * exp (vrate * (t - t0))) ->
    norm (dot (q :: shape)) (vsub (@exp_taylor RF (list nat) (vflow q lengths shape (fun k => sample (spacings lengths shape) (w k)) Z) dt 4 v)
      (samples shape (fun i => u i O (t + dt) none)))
      <= sqrt (points (q :: shape)) * ((t + dt - t0) * (C * (tau ^ 4 + hm ^ 2)) * exp (vrate * (t + dt - t0))).
  Proof.
    intros Pk. destruct (Rlt_dec t0 t1) as [H01|N01].
    2:{ exists 0. split; [lra|]. intros shape Z hm tau t dt v _ _ _ _ _ _ H1 H2 H3 _ H. assert (Ed : dt = 0) by lra. replace (t + dt) with t by lra.
        assert (X : forall f d, d = 0 -> @exp_taylor RF (list nat) f d 4 v = v).
        { intros f d ->. apply functional_extensionality. intros js. cbn [exp_taylor]. unfold vadd, vscale.
          rewrite !coefficient. rewrite !pow_i by lia. unfold Rdiv.
          cbn [fadd fmul RF F]. match goal with |- @eq _ ?a ?b => change (@eq R a b) end. ring. }
        rewrite X by auto. exact H. }
    destruct (local_fields H01 Pk) as (C & PC & HC). exists C. split; auto.
    intros shape Z hm tau t dt v Ls Hn Hd Hh HZ HZc H1 [H2 H4] H3 Cr H.
    set (A := vflow q lengths shape (fun k => sample (spacings lengths shape) (w k)) Z).
    set (ex := fun t => samples shape (fun i => u i O t none)). fold (ex t) in H. fold (ex (t + dt)).
    set (Q := C * (tau ^ 4 + hm ^ 2)) in *. set (S := sqrt (points (q :: shape))) in *.
    assert (PS : 0 <= S) by apply sqrt_pos.
    assert (PQ : 0 <= Q) by (unfold Q; apply Rmult_le_pos; auto; assert (0 <= tau ^ 4) by (apply pow_le; lra); nra).
    pose proof (vb_pos shape Z Ls Hn Hd HZ) as Pb.
    assert (PR : 0 <= vrate) by (apply Rmult_le_pos; auto; apply Rlt_le, exp_pos).
    assert (NEs := NE shape Hn).
    assert (PC' : 0 <= courant lengths shape V).
    { apply (courant_nonneg lengths shape Hd NEs (fun k => sample (spacings lengths shape) (w k)) V). intros; apply (speed_grid lengths w V L VW shape Ls); auto. }
    assert (Cr' : dt * courant lengths shape V <= 2 * sqrt 2) by (eapply Rle_trans; [apply Rmult_le_compat_r; [exact PC'|exact H4]|exact Cr]).
    eapply Rle_trans; [apply (norm_sub_triangle (dot (q :: shape)) (dot_inner (q :: shape)) _ (@exp_taylor RF (list nat) A dt 4 (ex t)))|].
    unfold vsub at 1. rewrite <- exp_sub_linear by apply vflow_linear. fold (vsub v (ex t)).
    pose proof (vgrowth_step shape Z Ls Hn Hd HZ dt (vsub v (ex t)) ltac:(lra) Cr') as G. fold A in G. fold vrate in G.
    pose proof (HC shape Z hm t dt Ls Hn Hd Hh HZ HZc H1 H2 H3 Cr') as G2. fold A in G2. fold (ex t) in G2. fold (ex (t + dt)) in G2. fold S in G2.
    assert (G3 : C * (dt ^ 4 + hm ^ 2) <= Q).
    { unfold Q. apply Rmult_le_compat_l; auto. apply Rplus_le_compat_r. apply pow_incr. lra. }
    apply Rle_trans with ((1 + dt * vrate) * (S * ((t - t0) * Q * exp (vrate * (t - t0)))) + S * (dt * Q)).
    - apply Rplus_le_compat.
      + eapply Rle_trans; [exact G|]. apply Rmult_le_compat_l; auto. assert (0 <= dt * vrate) by (apply Rmult_le_pos; auto). lra.
      + eapply Rle_trans; [exact G2|]. apply Rmult_le_compat_l; auto. apply Rmult_le_compat_l; auto.
    - pose proof (accumulate vrate (t - t0) dt Q PR ltac:(lra) H2 PQ) as Ac. replace (t - t0 + dt) with (t + dt - t0) in Ac by ring.
      apply (Rmult_le_compat_l S) in Ac; auto. eapply Rle_trans; [|exact Ac]. apply Req_le. ring.
  Qed.
End OnGrid.
