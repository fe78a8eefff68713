(** Convergence of the forecasts of the generated advection models for constant winds. *)
From Coq Require Import List Arith ZArith Bool Reals String Lia Lra Psatz Permutation FunctionalExtensionality.
From Verif Require Import PyBase PyBaseFacts Scalars FieldFacts SymModel PDEModel CodegenModel CodegenSpec FornbergModel FDExprModel FDExprSpec FDExprProofs FDSpec FornbergProofs FDReal GridModel GridSpec GridProofs GridMore
  ForecastModel ForecastSpec ConsistSpec ConsistModel ConsistProofs ConsistMain SchemesModel SchemesSpec SchemesProofs SchemesProps LineModel LineSpec LineProofs LineConv EnergySpec EnergyProofs
  AdvectModel AdvectSpec AdvectTrend AdvectGrid.
Import ListNotations.
Open Scope R_scope.

(** ** the norm of an inner product *)
Section Norm.
  Context {I : Type}.
  Variable ip : arr RF I -> arr RF I -> R.
  Hypothesis IP : inner_product ip.
  Lemma ipr_add a b c : ip a (@vadd RF I b c) = ip a b + ip a c.
  Proof. rewrite (ip_sym ip IP), (ip_add ip IP), !(ip_sym ip IP a). reflexivity. Qed.
  Lemma ipr_scale a k b : ip a (@vscale RF I k b) = k * ip a b.
  Proof. rewrite (ip_sym ip IP), (ip_scale ip IP), (ip_sym ip IP a). reflexivity. Qed.
  Lemma schwarz a b : ip a b * ip a b <= ip a a * ip b b.
  Proof.
    assert (Q : forall k : R, 0 <= ip a a + 2 * k * ip a b + k * k * ip b b).
    { intros k. pose proof (ip_pos ip IP (@vadd RF I a (@vscale RF I k b))) as P.
      repeat (rewrite ipr_add in P || rewrite ipr_scale in P || rewrite (ip_add ip IP) in P || rewrite (ip_scale ip IP) in P).
      rewrite (ip_sym ip IP b a) in P. lra. }
    pose proof (ip_pos ip IP b) as Pb. pose proof (ip_pos ip IP a) as Pa.
    destruct (Req_dec (ip b b) 0) as [Z|N].
    - rewrite Z. destruct (Req_dec (ip a b) 0) as [->|N]; [lra|]. exfalso.
      pose proof (Q (- (ip a a + 1) / (2 * ip a b))) as P. rewrite Z in P.
      replace (2 * (- (ip a a + 1) / (2 * ip a b)) * ip a b) with (- (ip a a + 1)) in P by (field; auto). lra.
    - pose proof (Q (- ip a b / ip b b)) as P.
      replace (ip a a + 2 * (- ip a b / ip b b) * ip a b + - ip a b / ip b b * (- ip a b / ip b b) * ip b b) with (ip a a - ip a b * ip a b / ip b b) in P by (field; auto).
      apply (Rmult_le_compat_r (ip b b)) in P; [|lra]. rewrite Rmult_0_l, Rmult_minus_distr_r in P.
      unfold Rdiv in P. rewrite Rmult_assoc, Rinv_l in P by auto. lra.
  Qed.
  Definition norm (a : arr RF I) : R := sqrt (ip a a).
  Lemma norm_pos a : 0 <= norm a. Proof. apply sqrt_pos. Qed.
  Lemma norm_sq a : norm a * norm a = ip a a. Proof. apply sqrt_sqrt, (ip_pos ip IP). Qed.
  Lemma norm_add a b : norm (@vadd RF I a b) <= norm a + norm b.
  Proof.
    pose proof (norm_pos a) as Pa. pose proof (norm_pos b) as Pb.
    apply Rsqr_incr_0; [|apply norm_pos|lra]. unfold Rsqr. rewrite norm_sq, ipr_add, !(ip_add ip IP), (ip_sym ip IP b a).
    assert (X : ip a b <= norm a * norm b).
    { destruct (Rle_dec (ip a b) 0) as [L|L]; [apply Rle_trans with 0; auto; apply Rmult_le_pos; auto|]. apply Rnot_le_lt in L.
      apply Rsqr_incr_0; [|lra|apply Rmult_le_pos; auto]. unfold Rsqr. pose proof (schwarz a b) as S. rewrite <- (norm_sq a), <- (norm_sq b) in S. lra. }
    rewrite <- (norm_sq a), <- (norm_sq b). lra.
  Qed.
End Norm.

(** ** families of fields *)
Definition sumk (n : nat) (f : nat -> R) : R := fold_right Rplus 0 (map f (seq 0 n)).
Lemma sumk_ext n (f g : nat -> R) : (forall k, (k < n)%nat -> f k = g k) -> sumk n f = sumk n g.
Proof. intros H. unfold sumk. f_equal. apply map_ext_in. intros k Hk. apply in_seq in Hk. apply H. lia. Qed.
Lemma sumk_minus n (f g : nat -> R) : sumk n f - sumk n g = sumk n (fun k => f k - g k).
Proof. unfold sumk. induction (seq 0 n) as [|k l IH]; cbn; [ring|]. rewrite <- IH. ring. Qed.
Lemma sumk_bound n (f g : nat -> R) : (forall k, (k < n)%nat -> Rabs (f k) <= g k) -> Rabs (sumk n f) <= sumk n g.
Proof.
  intros H. unfold sumk. assert (S : forall k, In k (seq 0 n) -> (k < n)%nat) by (intros k Hk; apply in_seq in Hk; lia).
  induction (seq 0 n) as [|k l IH]; cbn; [rewrite Rabs_R0; lra|].
  eapply Rle_trans; [apply Rabs_triang|]. apply Rplus_le_compat; [apply H, S; left; auto|apply IH; intros; apply S; right; auto].
Qed.
Lemma sumk_derivable n (f f' : nat -> R -> R) s : (forall k, (k < n)%nat -> derivable_pt_lim (f k) s (f' k s)) ->
  derivable_pt_lim (fun s => sumk n (fun k => f k s)) s (sumk n (fun k => f' k s)).
Proof.
  intros H. unfold sumk. assert (S : forall k, In k (seq 0 n) -> (k < n)%nat) by (intros k Hk; apply in_seq in Hk; lia).
  induction (seq 0 n) as [|k l IH]; cbn; [apply derivable_pt_lim_const|].
  apply (derivable_pt_lim_plus (f k)); [apply H, S; left; auto|apply IH; intros; apply S; right; auto].
Qed.
Lemma sumk_scale n c (f : nat -> R) : sumk n (fun k => c * f k) = c * sumk n f.
Proof. unfold sumk. induction (seq 0 n) as [|k l IH]; cbn; [ring|]. rewrite IH. ring. Qed.

Section Families.
  Variables (n : nat) (w : nat -> R).
  Notation family := (multi -> point -> R).
  Definition disc (dx : nat -> R) (f : point -> R) (p : point) : R := - sumk n (fun k => w k * @partial RF dx k 1 f p).
  Definition discs (dx : nat -> R) (W : family) : family := fun a => disc dx (W a).
  Definition cont (W : family) : family := fun a p => - sumk n (fun k => w k * W (inc k a) p).
  Definition bound1 (B : multi -> R) : multi -> R := fun a => sumk n (fun k => Rabs (w k) * B (inc k a)).
  Definition bound3 (B : multi -> R) : multi -> R := fun a => sumk n (fun k => Rabs (w k) / 6 * B (addm a (only k 3))).
  Fixpoint defect (m : nat) (B : multi -> R) : multi -> R :=
    match m with O => fun _ => 0 | S m => fun a => Nat.iter m bound1 (bound3 B) a + defect m (bound1 B) a end.

  Lemma inc_comm i k a : inc i (inc k a) = inc k (inc i a).
  Proof. apply functional_extensionality. intros j. unfold inc. destruct (Nat.eq_dec i j), (Nat.eq_dec k j); reflexivity. Qed.
  Lemma inc_only a k : addm a (only k 1) = inc k a.
  Proof. apply functional_extensionality. intros j. unfold addm, only, inc. destruct (Nat.eq_dec k j); lia. Qed.

  Lemma cont_family W : derivatives_of n W -> derivatives_of n (cont W).
  Proof.
    intros D a i p Hi. unfold cont.
    apply (derivable_pt_lim_opp (fun s => sumk n (fun k => w k * W (inc k a) (@at_coord RF p i s)))).
    eapply dl_eq; [|apply (sumk_derivable n (fun k s => w k * W (inc k a) (@at_coord RF p i s)) (fun k s => w k * W (inc k (inc i a)) p))].
    { reflexivity. }
    intros k Hk. apply (derivable_pt_lim_scal (fun s => W (inc k a) (@at_coord RF p i s))). rewrite <- inc_comm. apply D; auto.
  Qed.
  Lemma discs_family dx W : derivatives_of n W -> derivatives_of n (discs dx W).
  Proof.
    intros D a i p Hi. unfold discs, disc.
    apply (derivable_pt_lim_opp (fun s => sumk n (fun k => w k * @partial RF dx k 1 (W a) (@at_coord RF p i s)))).
    eapply dl_eq; [|apply (sumk_derivable n (fun k s => w k * @partial RF dx k 1 (W a) (@at_coord RF p i s)) (fun k s => w k * @partial RF dx k 1 (W (inc i a)) p))].
    { reflexivity. }
    intros k Hk. apply (derivable_pt_lim_scal (fun s => @partial RF dx k 1 (W a) (@at_coord RF p i s))).
    exact (partial_family n W D dx k 1 a i p Hi).
  Qed.
  Lemma cont_bound W B : (forall a p, Rabs (W a p) <= B a) -> forall a p, Rabs (cont W a p) <= bound1 B a.
  Proof.
    intros H a p. unfold cont, bound1. rewrite Rabs_Ropp. apply sumk_bound. intros k Hk. rewrite Rabs_mult.
    apply Rmult_le_compat_l; [apply Rabs_pos|apply H].
  Qed.
  Section Dx.
    Variables (dx : nat -> R) (h : R).
    Hypothesis Hdx : forall k, (k < n)%nat -> 0 < dx k <= h.
    Lemma discs_bound W B : derivatives_of n W -> (forall a p, Rabs (W a p) <= B a) -> forall a p, Rabs (discs dx W a p) <= bound1 B a.
    Proof.
      intros D H a p. unfold discs, disc, bound1. rewrite Rabs_Ropp. apply sumk_bound. intros k Hk. rewrite Rabs_mult.
      apply Rmult_le_compat_l; [apply Rabs_pos|]. apply (partial_bounded n W D); auto; [apply Hdx; auto|]. intros q. rewrite inc_only. apply H.
    Qed.
    Lemma discs_defect W B : derivatives_of n W -> (forall a p, Rabs (W a p) <= B a) -> forall a p, Rabs (discs dx W a p - cont W a p) <= bound3 B a * h ^ 2.
    Proof.
      intros D H a p. unfold discs, disc, cont, bound3.
      replace (- sumk n (fun k => w k * @partial RF dx k 1 (W a) p) - - sumk n (fun k => w k * W (inc k a) p))
        with (- (sumk n (fun k => w k * @partial RF dx k 1 (W a) p) - sumk n (fun k => w k * W (inc k a) p))) by ring.
      rewrite Rabs_Ropp, sumk_minus, Rmult_comm, <- sumk_scale. apply sumk_bound. intros k Hk.
      rewrite <- Rmult_minus_distr_l, Rabs_mult.
      pose proof (partial_consistent n W D dx k 1 a (B (addm a (only k 3))) p Hk (proj1 (Hdx k Hk)) (fun q => H _ q)) as P.
      rewrite inc_only in P. change (INR 1) with 1 in P.
      assert (B0 : 0 <= B (addm a (only k 3))) by (eapply Rle_trans; [apply Rabs_pos|apply (H _ p)]).
      assert (S2 : dx k ^ 2 <= h ^ 2) by (apply pow_incr; destruct (Hdx k Hk); lra).
      assert (A0 := Rabs_pos (w k)).
      apply Rle_trans with (Rabs (w k) * (1 / 6 * B (addm a (only k 3)) * dx k ^ 2)); [apply Rmult_le_compat_l; auto|].
      assert (1 / 6 * B (addm a (only k 3)) * dx k ^ 2 <= 1 / 6 * B (addm a (only k 3)) * h ^ 2) by (apply Rmult_le_compat_l; lra).
      apply Rle_trans with (Rabs (w k) * (1 / 6 * B (addm a (only k 3)) * h ^ 2)); [apply Rmult_le_compat_l; auto|]. apply Req_le. field.
    Qed.
    Lemma bound1_scale c B : bound1 (fun a => B a * c) = fun a => bound1 B a * c.
    Proof.
      apply functional_extensionality. intros a. unfold bound1. rewrite Rmult_comm, <- sumk_scale. apply sumk_ext. intros; ring.
    Qed.
    Lemma discs_iter_bound m : forall W B, derivatives_of n W -> (forall a p, Rabs (W a p) <= B a) ->
      forall a p, Rabs (Nat.iter m (discs dx) W a p) <= Nat.iter m bound1 B a.
    Proof.
      induction m as [|m IH]; intros W B D H; [exact H|]. rewrite !iter_r. apply IH; [apply discs_family; auto|apply discs_bound; auto].
    Qed.
    Lemma bound1_iter_scale m : forall c B, Nat.iter m bound1 (fun a => B a * c) = fun a => Nat.iter m bound1 B a * c.
    Proof. induction m as [|m IH]; intros c B; [reflexivity|]. rewrite !iter_r, bound1_scale. apply IH. Qed.
    Lemma partial_minus k f g p : @partial RF dx k 1 (fun q => f q - g q) p = @partial RF dx k 1 f p - @partial RF dx k 1 g p.
    Proof. pose proof (partial_sub dx k 1 f g p) as P. lra. Qed.
    Lemma discs_minus W V : discs dx (fun a p => W a p - V a p) = fun a p => discs dx W a p - discs dx V a p.
    Proof.
      apply functional_extensionality. intros a. apply functional_extensionality. intros p. unfold discs, disc.
      replace (- sumk n (fun k => w k * @partial RF dx k 1 (W a) p) - - sumk n (fun k => w k * @partial RF dx k 1 (V a) p))
        with (- (sumk n (fun k => w k * @partial RF dx k 1 (W a) p) - sumk n (fun k => w k * @partial RF dx k 1 (V a) p))) by ring.
      rewrite sumk_minus. f_equal. apply sumk_ext. intros k _. rewrite partial_minus. ring.
    Qed.
    Lemma discs_iter_minus m : forall W V, Nat.iter m (discs dx) (fun a p => W a p - V a p) = fun a p => Nat.iter m (discs dx) W a p - Nat.iter m (discs dx) V a p.
    Proof. induction m as [|m IH]; intros W V; [reflexivity|]. rewrite !iter_r, discs_minus. apply IH. Qed.

    Theorem iter_defect m : forall W B, derivatives_of n W -> (forall a p, Rabs (W a p) <= B a) ->
      forall a p, Rabs (Nat.iter m (discs dx) W a p - Nat.iter m cont W a p) <= defect m B a * h ^ 2.
    Proof.
      induction m as [|m IH]; intros W B D H a p.
      - cbn. rewrite Rminus_diag_eq by auto. rewrite Rabs_R0. lra.
      - rewrite !iter_r. cbn [defect].
        pose proof (discs_iter_bound m (fun a p => discs dx W a p - cont W a p) (fun a => bound3 B a * h ^ 2)) as X1.
        rewrite discs_iter_minus, bound1_iter_scale in X1.
        specialize (X1 ltac:(apply minus_family; [apply discs_family|apply cont_family]; auto) (discs_defect W B D H) a p).
        pose proof (IH (cont W) (bound1 B) (cont_family W D) (cont_bound W B H) a p) as X2.
        cbv beta in X1. apply Rabs_inv in X1, X2. apply Rabs_le. rewrite Rmult_plus_distr_r. lra.
    Qed.
  End Dx.
  Lemma cont_iter_bound m : forall W B, (forall a p, Rabs (W a p) <= B a) -> forall a p, Rabs (Nat.iter m cont W a p) <= Nat.iter m bound1 B a.
  Proof. induction m as [|m IH]; intros W B H; [exact H|]. rewrite !iter_r. apply IH. apply cont_bound; auto. Qed.
  (** the derivative in time *)
  Lemma cont_time m : forall (u : R -> family) (u' : R -> family) t, (forall a p, derivable_pt_lim (fun s => u s a p) t (u' t a p)) ->
    forall a p, derivable_pt_lim (fun s => Nat.iter m cont (u s) a p) t (Nat.iter m cont (u' t) a p).
  Proof.
    induction m as [|m IH]; intros u u' t H a p; [apply H|].
    rewrite iter_r. apply (derivable_pt_lim_ext (fun s => Nat.iter m cont (cont (u s)) a p)).
    { intros s. change (Nat.iter m cont (cont (u s)) a p = Nat.iter (S m) cont (u s) a p). rewrite iter_r. reflexivity. }
    apply (IH (fun s => cont (u s)) (fun s => cont (u' s))). intros b q. unfold cont.
    apply (derivable_pt_lim_opp (fun s => sumk n (fun k => w k * u s (inc k b) q))).
    apply (sumk_derivable n (fun k s => w k * u s (inc k b) q) (fun k s => w k * u' t (inc k b) q)).
    intros k Hk. apply (derivable_pt_lim_scal (fun s => u s (inc k b) q)). apply H.
  Qed.
End Families.

(** ** fields on the grid *)
Lemma nth_set_nth_same {A} (d v : A) : forall l i, (i < List.length l)%nat -> nth i (set_nth i v l) d = v.
Proof. induction l as [|x l IH]; intros [|i] H; cbn in *; try lia; auto. apply IH. lia. Qed.
Lemma nth_set_nth_other {A} (d v : A) : forall l i j, i <> j -> nth j (set_nth i v l) d = nth j l d.
Proof. induction l as [|x l IH]; intros [|i] [|j] H; cbn; auto; try congruence. Qed.
Section Sampled.
  Variables (lengths : list R) (shape : list nat) (w : nat -> R).
  Hypothesis Ls : List.length shape = List.length lengths.
  Hypothesis Hn : forall n, In n shape -> n <> O.
  Hypothesis Hd : forall k, (k < List.length shape)%nat -> 0 < step_of lengths shape k.
  Notation n := (List.length shape).
  Notation dxl := (spacings lengths shape).
  Definition dxf (i : nat) : R := nth i (spacings lengths shape) 0.
  Notation flow := (flow lengths shape (fun k _ => w k)).

  Lemma dxf_step k : (k < n)%nat -> dxf k = step_of lengths shape k.
  Proof.
    intros Hk. destruct (nth_error lengths k) as [L|] eqn:E; [|apply nth_error_None in E; lia].
    destruct (spacings_nth lengths shape k L ltac:(lia) E) as (m & Hs & Hv).
    unfold dxf, step_of. rewrite Hv, (nth_error_nth _ _ 0 E), (nth_error_nth _ _ O Hs). reflexivity.
  Qed.
  Lemma displaced_unit (p : point) k (s : Z) : (k < n)%nat ->
    @displaced RF p dxf (addz k s (repeat 0%Z n)) = @at_coord RF p k (p k + IZR s * dxf k)%R.
  Proof.
    intros Hk. apply functional_extensionality. intros i. unfold displaced, at_coord, addz.
    assert (Z0 : forall j, nth j (repeat 0%Z n) 0%Z = 0%Z) by (intros j; generalize n; clear; intros m; revert j; induction m; intros [|j]; cbn; auto).
    rewrite fz_IZR. destruct (Nat.eq_dec k i) as [<-|N].
    - rewrite nth_set_nth_same by (rewrite repeat_length; auto). rewrite Z0, Z.add_0_l. reflexivity.
    - rewrite nth_set_nth_other by auto. rewrite Z0. change (p i + IZR 0 * dxf i = p i). rewrite Rmult_0_l. ring.
  Qed.
  Lemma slope_sample k (f : point -> R) js : (k < n)%nat -> in_range shape js -> periodic lengths f ->
    slope lengths shape k (sample dxl f) js = @partial RF dxf k 1 f (grid_point dxl js).
  Proof.
    intros Hk H P. assert (Lj := in_range_length _ _ H). pose proof (Hd k Hk) as Hh. rewrite <- dxf_step in Hh by auto.
    unfold slope. rewrite <- wrap_next, <- wrap_prev by auto. rewrite !sample_wrap by (auto using addz_length).
    change (fun i => nth i dxl 0) with dxf. rewrite !displaced_unit by auto. rewrite <- dxf_step by auto.
    rewrite partial_apply, central_1 by lra. unfold dc. set (q := grid_point dxl js).
    replace (q k + IZR 1 * dxf k) with (q k + dxf k) by ring. replace (q k + IZR (-1) * dxf k) with (q k - dxf k) by ring. reflexivity.
  Qed.
  Lemma partial_periodic k (f : point -> R) : (k < n)%nat -> periodic lengths f -> periodic lengths (@partial RF dxf k 1 f).
  Proof.
    intros Hk P i p L HL. pose proof (Hd k Hk) as Hh. rewrite <- dxf_step in Hh by auto.
    rewrite !partial_apply, !central_1 by lra. unfold dc.
    assert (G : forall s, f (@at_coord RF (@at_coord RF p i (p i + L)%R) k (@at_coord RF p i (p i + L)%R k + s)%R) = f (@at_coord RF p k (p k + s)%R)).
    { intros s. destruct (Nat.eq_dec i k) as [<-|N].
      - rewrite at_twice, at_same. rewrite <- (P i (@at_coord RF p i (p i + s)%R) L HL), at_twice, at_same. do 2 f_equal. ring.
      - rewrite at_other by auto. rewrite at_comm by auto.
        rewrite <- (P i (@at_coord RF p k (p k + s)%R) L HL). rewrite at_other by auto. reflexivity. }
    unfold Rminus. rewrite !G. reflexivity.
  Qed.
  Lemma disc_periodic f : periodic lengths f -> periodic lengths (disc n w dxf f).
  Proof.
    intros P i p L HL. unfold disc. f_equal. apply sumk_ext. intros k Hk. f_equal. apply (partial_periodic k f Hk P i p L HL).
  Qed.
  Lemma flow_sample f : periodic lengths f -> flow (cut shape (sample dxl f)) = cut shape (sample dxl (disc n w dxf f)).
  Proof.
    intros P. unfold AdvectGrid.flow. apply cut_eq. intros js H. unfold transported, over_axes, sample, disc. f_equal.
    apply sumk_ext. intros k Hk. f_equal. rewrite <- slope_sample by auto.
    apply slope_ext; auto. intros js' H'. apply cut_in; auto.
  Qed.
  Lemma flow_iter m : forall f, periodic lengths f -> Nat.iter m flow (cut shape (sample dxl f)) = cut shape (sample dxl (Nat.iter m (disc n w dxf) f)).
  Proof.
    induction m as [|m IH]; intros f P; [reflexivity|].
    rewrite !iter_r, flow_sample by auto. apply IH. apply disc_periodic; auto.
  Qed.
  Lemma discs_iter m : forall W a, Nat.iter m (discs n w dxf) W a = Nat.iter m (disc n w dxf) (W a).
  Proof. induction m as [|m IH]; intros W a; [reflexivity|]. rewrite !iter_r, IH. reflexivity. Qed.

  Variable h : R.
  Hypothesis Hh : forall k, (k < n)%nat -> 0 < dxf k <= h.
  (** the truncated exponentials of the discrete and of the continuous operators *)
  Fixpoint weighted (T : R) (p : nat) (d : nat -> R) : R :=
    match p with O => 0 | S q => weighted T q d + T ^ q / INR (fact (S q)) * d (S q) end.
  Lemma exp_defect p : forall W B dt T js, derivatives_of n W -> (forall a q, Rabs (W a q) <= B a) -> periodic lengths (W none) -> in_range shape js -> 0 <= dt <= T ->
    Rabs (@exp_taylor RF (list nat) flow dt p (cut shape (sample dxl (W none))) js -
          taylor (fun k _ => Nat.iter k (cont n w) W none (grid_point dxl js)) 0 p dt) <= dt * weighted T p (fun m => defect n w m B none) * h ^ 2.
  Proof.
    induction p as [|p IH]; intros W B dt T js D H P Hj Ht.
    - cbn. rewrite cut_in by auto. unfold sample. rewrite Rminus_diag_eq by auto. rewrite Rabs_R0. lra.
    - specialize (IH W B dt T js D H P Hj Ht).
      set (v := cut shape (sample dxl (W none))) in *.
      change (@exp_taylor RF (list nat) flow dt (S p) v js) with
        (@exp_taylor RF (list nat) flow dt p v js + @fdiv RF (@fpow RF dt (S p)) (@ffact RF (S p)) * Nat.iter (S p) flow v js).
      cbn [taylor weighted].
      set (c := @fdiv RF (@fpow RF dt (S p)) (@ffact RF (S p))).
      assert (Ec : c = dt ^ S p / INR (fact (S p))).
      { unfold c, ffact. rewrite fnat_INR.
        assert (Ep : forall q, @fpow RF dt q = dt ^ q) by (induction q as [|q IHq]; [reflexivity|]; cbn in *; rewrite IHq; reflexivity).
        rewrite Ep. reflexivity. }
      rewrite Rminus_0_r. rewrite <- Ec.
      pose proof (iter_defect n w dxf h Hh (S p) W B D H none (grid_point dxl js)) as X. rewrite discs_iter in X.
      assert (Es : Nat.iter (S p) flow v js = Nat.iter (S p) (disc n w dxf) (W none) (grid_point dxl js)).
      { unfold v. rewrite flow_iter by auto. rewrite cut_in by auto. reflexivity. }
      rewrite Es. set (X1 := Nat.iter (S p) (disc n w dxf) (W none) (grid_point dxl js)) in *.
      set (X2 := Nat.iter (S p) (cont n w) W none (grid_point dxl js)) in *.
      set (Y1 := @exp_taylor RF (list nat) flow dt p v js) in *. set (Y2 := taylor (fun k _ => Nat.iter k (cont n w) W none (grid_point dxl js)) 0 p dt) in *.
      replace (Y1 + c * X1 - (Y2 + c * X2)) with ((Y1 - Y2) + c * (X1 - X2)) by ring.
      eapply Rle_trans; [apply Rabs_triang|]. rewrite Rabs_mult.
      assert (I0 : 0 < / INR (fact (S p))) by (apply Rinv_0_lt_compat, INR_fact_lt_0).
      assert (Pc : 0 <= c <= dt * (T ^ p / INR (fact (S p)))).
      { rewrite Ec. assert (0 <= dt ^ p <= T ^ p) by (split; [apply pow_le; lra|apply pow_incr; lra]). split.
        - unfold Rdiv. apply Rmult_le_pos; [apply pow_le; lra|lra].
        - cbn [pow]. unfold Rdiv. rewrite Rmult_assoc. apply Rmult_le_compat_l; [lra|]. apply Rmult_le_compat_r; lra. }
      rewrite (Rabs_pos_eq c) by lra.
      assert (Z : c * Rabs (X1 - X2) <= dt * (T ^ p / INR (fact (S p))) * (defect n w (S p) B none * h ^ 2)).
      { apply Rmult_le_compat; try lra. apply Rabs_pos. }
      lra.
  Qed.
End Sampled.

(** ** one step from the exact solution *)
Section Local.
  Variables (lengths : list R) (w : nat -> R) (t0 t1 : R) (u : R -> multi -> point -> R).
  Notation n := (List.length lengths).
  Hypothesis TS : transport_solution n lengths w t0 t1 u.

  Lemma taylor_shift (F : nat -> R -> R) t p dt : taylor (fun k _ => F k t) 0 p dt = taylor F t p (t + dt).
  Proof.
    induction p as [|p IH]; [reflexivity|]. cbn [taylor]. rewrite IH. replace (dt - 0) with dt by ring. replace (t + dt - t) with dt by ring. reflexivity.
  Qed.
  Lemma time_defect p B : (forall a t q, t0 <= t <= t1 -> Rabs (u t a q) <= B a) -> forall t dt q, t0 <= t -> 0 <= dt -> t + dt <= t1 ->
    Rabs (u (t + dt) none q - taylor (fun k s => Nat.iter k (cont n w) (u s) none q) t p (t + dt))
    <= Nat.iter (S p) (bound1 n w) B none / INR (fact (S p)) * dt ^ S p.
  Proof.
    intros HB t dt q H1 H2 H3.
    pose proof (taylor_bound t (t + dt) (Nat.iter (S p) (bound1 n w) B none) p ltac:(lra) (fun k s => Nat.iter k (cont n w) (u s) none q)) as T. cbv beta in T.
    replace (Nat.iter (S p) (bound1 n w) B none / INR (fact (S p)) * dt ^ S p)
      with (Nat.iter (S p) (bound1 n w) B none * ((t + dt - t) ^ S p / INR (fact (S p))))
      by (replace (t + dt - t) with dt by ring; unfold Rdiv; ring).
    apply (fun A B => T A B (t + dt)); [| |lra].
    - intros k s Hp Hs. rewrite iter_r.
      apply (cont_time n w k u (fun s => cont n w (u s)) s). intros a q'. apply (ts_equation _ _ _ _ _ _ TS). lra.
    - intros s Hs. apply cont_iter_bound. intros a q'. apply HB. lra.
  Qed.
  (** the error of a step *)
  Lemma local_error p : exists C, 0 <= C /\ forall shape h t dt js, List.length shape = n -> (forall m, In m shape -> m <> O) ->
    (forall k, (k < List.length shape)%nat -> 0 < step_of lengths shape k) -> (forall k, (k < n)%nat -> dxf lengths shape k <= h) ->
    t0 <= t -> 0 <= dt -> t + dt <= t1 -> in_range shape js ->
    Rabs (@exp_taylor RF (list nat) (flow lengths shape (fun k _ => w k)) dt p (cut shape (sample (spacings lengths shape) (u t none))) js
          - u (t + dt) none (grid_point (spacings lengths shape) js)) <= dt * C * (dt ^ p + h ^ 2).
  Proof.
    destruct (ts_bounded _ _ _ _ _ _ TS) as (B & HB).
    set (C1 := weighted (t1 - t0) p (fun m => defect n w m B none)).
    set (C2 := Nat.iter (S p) (bound1 n w) B none / INR (fact (S p))).
    exists (Rabs C1 + Rabs C2). split; [pose proof (Rabs_pos C1); pose proof (Rabs_pos C2); lra|].
    intros shape h t dt js Ls Hn Hd Hh H1 H2 H3 Hj.
    assert (Hdx : forall k, (k < List.length shape)%nat -> 0 < dxf lengths shape k <= h).
    { intros k Hk. split; [rewrite dxf_step by auto; apply Hd; auto|apply Hh; lia]. }
    pose proof (exp_defect lengths shape w Ls Hn Hd h Hdx p (u t) B dt (t1 - t0) js) as X.
    rewrite Ls in X. specialize (X (ts_space _ _ _ _ _ _ TS t ltac:(lra)) (fun a q => HB a t q ltac:(lra)) (ts_period _ _ _ _ _ _ TS t ltac:(lra)) Hj ltac:(lra)).
    fold C1 in X. rewrite (taylor_shift (fun k s => Nat.iter k (cont n w) (u s) none (grid_point (spacings lengths shape) js))) in X.
    pose proof (time_defect p B HB t dt (grid_point (spacings lengths shape) js) H1 H2 H3) as Y. fold C2 in Y.
    assert (A1 : dt * C1 * h ^ 2 <= dt * Rabs C1 * h ^ 2).
    { apply Rmult_le_compat_r; [nra|]. apply Rmult_le_compat_l; auto. apply Rle_abs. }
    assert (A2 : C2 * dt ^ S p <= dt * Rabs C2 * dt ^ p).
    { cbn [pow]. replace (C2 * (dt * dt ^ p)) with (dt * C2 * dt ^ p) by ring. apply Rmult_le_compat_r; [apply pow_le; auto|].
      apply Rmult_le_compat_l; auto. apply Rle_abs. }
    assert (A3 : 0 <= dt * Rabs C1 * dt ^ p) by (apply Rmult_le_pos; [apply Rmult_le_pos; auto using Rabs_pos|apply pow_le; auto]).
    assert (A4 : 0 <= dt * Rabs C2 * h ^ 2) by (apply Rmult_le_pos; [apply Rmult_le_pos; auto using Rabs_pos|nra]).
    apply Rabs_inv in X, Y. apply Rabs_le. 
    replace (dt * (Rabs C1 + Rabs C2) * (dt ^ p + h ^ 2)) with (dt * Rabs C1 * dt ^ p + dt * Rabs C1 * h ^ 2 + dt * Rabs C2 * dt ^ p + dt * Rabs C2 * h ^ 2) by ring.
    lra.
  Qed.
End Local.

(** ** the generated model and its field *)
Section Model.
  Variables (c : advect) (lengths : list R) (shape : list nat) (W : list (list nat -> R)).
  Variables (enum : list sx -> list sx) (x : nat -> R) (ord : list datom -> list datom).
  Variables (rpow : R -> R -> R) (g : @grid RF) (caches : R -> list (string * nat) -> (list nat -> R) -> cache).
  Variable attr : string -> res (list nat -> R).
  Hypothesis AC : advect_class c lengths shape W enum ord g caches attr.
  Notation trend := (generated_trend enum x ord rpow (axes c) g caches attr (advection c)).
  Notation f := (flow lengths shape (wind_along W)).
  Definition view (state : list nat -> R) : list nat -> R := cut shape (field state).
  Lemma view_linear : @linear RF (list nat) (list nat) view.
  Proof.
    split; intros; apply functional_extensionality; intros js; unfold view, cut, vadd, vscale, field; cbn; destruct (inb shape js); cbn; ring.
  Qed.
  Lemma trend_view (t : R) state : @pure RF (list nat) (fun _ => f) t (view state) = (v <- trend t state ;; Ok (view v)).
  Proof.
    destruct (advection_trend c lengths shape W enum x ord rpow g caches attr AC t state) as (r & E & H).
    rewrite E. cbn [bind]. unfold pure. f_equal. unfold flow, view. apply cut_eq. intros js Hj.
    unfold field at 2. rewrite H by auto. unfold transported, over_axes. f_equal. f_equal. apply map_ext_in. intros k Hk.
    apply in_seq in Hk. f_equal. apply slope_ext; try lia; auto. intros; apply cut_in; auto.
  Qed.
  Lemma step_view s (t dt : R) state : exists r, @onestep_fun RF (list nat) s trend t state dt = Ok r /\
    view r = @exp_taylor RF (list nat) f dt (onestep_order s) (view state).
  Proof.
    pose proof (C13_step_intertwines RF s view trend (@pure RF (list nat) (fun _ => f)) view_linear trend_view t state dt) as X.
    pose proof (step_linear_exp RF s f t (view state) dt (flow_linear lengths shape (wind_along W))) as Y.
    change (@pure RF (list nat) (fun _ v => f v)) with (@pure RF (list nat) (fun _ => f)) in Y. cbn [F RF] in X, Y.
    destruct (@onestep_fun RF (list nat) s trend t state dt) as [r|e]; cbn [bind] in X; [|congruence].
    exists r. split; auto. apply Ok_inj. transitivity (@onestep_fun RF (list nat) s (@pure RF (list nat) (fun _ => f)) t (view state) dt); [symmetry; exact X|exact Y].
  Qed.
  Lemma steps_pos k : (k < List.length shape)%nat -> 0 < step_of lengths shape k.
  Proof. apply (step_pos c lengths shape W enum ord g caches attr AC). Qed.
  Lemma some_point : exists js, in_range shape js.
  Proof.
    destruct (shape_ok c lengths shape W enum ord g caches attr AC) as [_ Hn]. clear AC.
    exists (map (fun _ => O) shape). induction shape as [|m s IH]; constructor.
    - assert (m <> O) by (apply Hn; left; auto). lia.
    - apply IH. intros; apply Hn; right; auto.
  Qed.
  Lemma mass_view state : mass shape state = GS shape (view state).
  Proof. unfold mass. apply gs_ext. intros js H. unfold view. rewrite cut_in by auto. reflexivity. Qed.
  Lemma energy_view state : energy shape state = dot shape (view state) (view state).
  Proof. unfold energy, dot. apply gs_ext. intros js H. unfold view. rewrite cut_in by auto. reflexivity. Qed.
End Model.

(** ** forecasts *)
Lemma exp_invariant {I} (phi : arr RF I -> R) (f : arr RF I -> arr RF I) :
  (forall a b, phi (@vadd RF I a b) = phi a + phi b) -> (forall k a, phi (@vscale RF I k a) = k * phi a) ->
  (forall a, phi (f a) = 0) -> forall (dt : R) p a, phi (@exp_taylor RF I f dt p a) = phi a.
Proof.
  intros H1 H2 H3 dt p a. induction p as [|p IH]; [reflexivity|]. cbn [exp_taylor]. rewrite H1, H2, IH.
  change (Nat.iter (S p) f a) with (f (Nat.iter p f a)). rewrite H3. ring.
Qed.
Lemma exp_sub_linear {I} (f : arr RF I -> arr RF I) (dt : R) p a b : @linear RF I I f ->
  @exp_taylor RF I f dt p (@vadd RF I a (@vscale RF I (-1) b)) =
  @vadd RF I (@exp_taylor RF I f dt p a) (@vscale RF I (-1) (@exp_taylor RF I f dt p b)).
Proof.
  intros [L1 L2]. assert (It : forall k, Nat.iter k f (@vadd RF I a (@vscale RF I (-1) b)) = @vadd RF I (Nat.iter k f a) (@vscale RF I (-1) (Nat.iter k f b))).
  { induction k as [|k IHk]; [reflexivity|]. change (Nat.iter (S k) f) with (fun x => f (Nat.iter k f x)). cbv beta. rewrite IHk, L1, L2. reflexivity. }
  induction p as [|p IH]; [reflexivity|]. cbn [exp_taylor]. rewrite IH, It. apply functional_extensionality. intros i. unfold vadd, vscale. cbn. ring.
Qed.

Section Forecasts.
  Variables (c : advect) (lengths : list R) (shape : list nat) (W : list (list nat -> R)).
  Variables (enum : list sx -> list sx) (x : nat -> R) (ord : list datom -> list datom).
  Variables (rpow : R -> R -> R) (g : @grid RF) (caches : R -> list (string * nat) -> (list nat -> R) -> cache).
  Variable attr : string -> res (list nat -> R).
  Hypothesis AC : advect_class c lengths shape W enum ord g caches attr.
  Notation trend := (generated_trend enum x ord rpow (axes c) g caches attr (advection c)).
  Notation f := (flow lengths shape (wind_along W)).

  Lemma model_budget (t : R) state r : trend t state = Ok r ->
    mass shape r = GS shape (fun js => divergence lengths shape (wind_along W) js * field state js).
  Proof.
    intros E. pose proof (trend_view c lengths shape W enum x ord rpow g caches attr AC t state) as X. rewrite E in X. cbn [bind] in X.
    unfold pure in X. apply Ok_inj in X. rewrite mass_view, <- X, flow_budget by (apply (steps_pos c lengths shape W enum ord g caches attr AC)).
    apply gs_ext. intros js H. unfold view. rewrite cut_in by auto. reflexivity.
  Qed.
  Lemma model_mass s w state sv : w <> [] -> sv <> SOther ->
    (forall js, in_range shape js -> divergence lengths shape (wind_along W) js = 0) ->
    exists traj, forecast Req_EM_T Rminus (@onestep_fun RF (list nat) s) trend w state sv = Ok traj /\
      forall t, In t w -> is_saved w sv t -> exists r, dget Req_EM_T t traj = Some r /\ mass shape r = mass shape state.
  Proof.
    intros Hw Hs Dv. destruct w as [|t0 w]; [congruence|].
    apply (forecast_keeps (@onestep_fun RF (list nat) s) trend (fun _ r => mass shape r = mass shape state) (t0 :: w) state sv t0); auto.
    intros k t t' r H H' Hr. destruct (step_view c lengths shape W enum x ord rpow g caches attr AC s t (t' - t) r) as (r' & Er & Ev).
    exists r'. split; [exact Er|]. rewrite mass_view, Ev, <- Hr, mass_view.
    apply (exp_invariant (GS shape)); intros.
    - unfold vadd. apply gs_add.
    - unfold vscale. apply gs_scale.
    - rewrite flow_budget by (apply (steps_pos c lengths shape W enum ord g caches attr AC)).
      rewrite <- (gs_zero shape). apply gs_ext. intros js Hj. rewrite Dv by auto. ring.
  Qed.
  Lemma skew_model : unsheared shape W -> conservative (dot shape) f.
  Proof.
    intros U. apply flow_skew; auto. apply (steps_pos c lengths shape W enum ord g caches attr AC).
  Qed.
  Lemma courant_pos V : (forall k js, (k < List.length shape)%nat -> in_range shape js -> Rabs (wind_along W k js) <= V k) ->
    0 <= courant lengths shape V.
  Proof.
    intros HV. destruct (some_point c lengths shape W enum ord g caches attr AC) as (js & Hj). 
    pose proof (steps_pos c lengths shape W enum ord g caches attr AC) as Hd. unfold courant, over_axes.
    assert (S : forall k, In k (seq 0 (List.length shape)) -> (k < List.length shape)%nat) by (intros k Hk; apply in_seq in Hk; lia).
    induction (seq 0 (List.length shape)) as [|k l IH]; [cbn; lra|]. cbn [map fold_right].
    apply Rplus_le_le_0_compat; [|apply IH; intros; apply S; right; auto].
    assert (Hk : (k < List.length shape)%nat) by (apply S; left; auto).
    apply Rmult_le_pos; [apply Rle_trans with (Rabs (wind_along W k js)); [apply Rabs_pos|apply HV; auto]|].
    apply Rlt_le, Rinv_0_lt_compat, Hd; auto.
  Qed.
  Lemma rk4_contracts V (dt tau : R) a : unsheared shape W ->
    (forall k js, (k < List.length shape)%nat -> in_range shape js -> Rabs (wind_along W k js) <= V k) ->
    0 <= dt <= tau -> tau * courant lengths shape V <= 2 * sqrt 2 ->
    dot shape (@exp_taylor RF (list nat) f dt 4 a) (@exp_taylor RF (list nat) f dt 4 a) <= dot shape a a.
  Proof.
    intros U HV Ht C. pose proof (courant_pos V HV) as Pm. set (m := courant lengths shape V) in *.
    pose proof (exp_gain (dot shape) f (dot_inner shape) (flow_linear lengths shape (wind_along W)) (skew_model U) SRk4 dt a) as G. cbv zeta in G.
    cbn [onestep_order] in G. rewrite G.
    enough (gain (dot shape) f SRk4 dt a <= 0) by lra. apply (gain_rk4 (dot shape) f (dot_inner shape) m).
    - apply flow_at_most; auto; [apply (steps_pos c lengths shape W enum ord g caches attr AC)|apply (some_point c lengths shape W enum ord g caches attr AC)].
    - replace (dt ^ 2 * m ^ 2) with ((dt * m) ^ 2) by ring. replace 8 with ((2 * sqrt 2) ^ 2).
      + apply pow_incr. split; [apply Rmult_le_pos; lra|]. apply Rle_trans with (tau * m); auto. apply Rmult_le_compat_r; lra.
      + pose proof (sqrt_sqrt 2 ltac:(lra)). cbn. lra.
  Qed.
  Lemma model_energy V tau w state sv : w <> [] -> sv <> SOther -> unsheared shape W ->
    (forall k js, (k < List.length shape)%nat -> in_range shape js -> Rabs (wind_along W k js) <= V k) ->
    by_steps tau w -> tau * courant lengths shape V <= 2 * sqrt 2 ->
    exists traj, forecast Req_EM_T Rminus (@rk4 RF (list nat)) trend w state sv = Ok traj /\
      forall t, In t w -> is_saved w sv t -> exists r, dget Req_EM_T t traj = Some r /\ energy shape r <= energy shape state.
  Proof.
    intros Hw Hs U HV B C. destruct w as [|t0 w]; [congruence|].
    apply (forecast_keeps (@rk4 RF (list nat)) trend (fun _ r => energy shape r <= energy shape state) (t0 :: w) state sv t0); auto; [lra|].
    intros k t t' r H H' Hr. destruct (step_view c lengths shape W enum x ord rpow g caches attr AC SRk4 t (t' - t) r) as (r' & Er & Ev).
    exists r'. split; [exact Er|]. rewrite energy_view, Ev. destruct (B k t t' H H') as [B1 B2].
    eapply Rle_trans; [apply (rk4_contracts V (t' - t) tau); auto; lra|]. rewrite <- energy_view. exact Hr.
  Qed.
End Forecasts.

Section Converge.
  Variables (lengths ws : list R) (t0 t1 : R) (u : R -> multi -> point -> R).
  Notation n := (List.length lengths).
  Notation w := (fun k => nth k ws 0).
  Hypothesis TS : transport_solution n lengths w t0 t1 u.
  Lemma wind_const k : wind_along (map (fun v (_ : list nat) => v) ws) k = fun _ => nth k ws 0.
  Proof.
    unfold wind_along. apply functional_extensionality. intros js.
    assert (G : forall k l, nth k (map (fun v (_ : list nat) => v) l) (fun _ => 0) js = nth k l 0).
    { intros k'. induction k' as [|k' IH]; intros [|a l]; cbn; auto. }
    apply G.
  Qed.
  Lemma norm_of_bound shape (a : list nat -> R) B : 0 <= B -> (forall js, in_range shape js -> Rabs (a js) <= B) ->
    norm (dot shape) a <= sqrt (points shape) * B.
  Proof.
    intros PB H. unfold norm, dot.
    assert (P : 0 <= points shape). { pose proof (gs_const shape 1) as E. rewrite Rmult_1_r in E. rewrite <- E. apply gs_nonneg. intros; lra. }
    replace (sqrt (points shape) * B) with (sqrt (points shape * (B * B))).
    - apply sqrt_le_1_alt. rewrite <- gs_const. apply gs_le. intros js Hj. specialize (H js Hj). apply Rabs_inv in H. nra.
    - rewrite sqrt_mult by nra. rewrite sqrt_square by auto. reflexivity.
  Qed.
  Theorem advection_forecast : exists C, forall c shape enum x ord rpow g caches attr tau win state sv,
    advect_class c lengths shape (map (fun v (_ : list nat) => v) ws) enum ord g caches attr ->
    runs t0 t1 tau win -> (forall js, in_range shape js -> field state js = u t0 none (grid_point (g_dx g) js)) ->
    0 <= tau -> tau * courant lengths shape (fun k => Rabs (nth k ws 0)) <= 2 * sqrt 2 -> sv <> SOther ->
    exists traj, forecast Req_EM_T Rminus (@rk4 RF (list nat)) (generated_trend enum x ord rpow (axes c) g caches attr (advection c)) win state sv = Ok traj /\
      forall t, In t win -> is_saved win sv t -> exists r, dget Req_EM_T t traj = Some r /\
        rms_error (g_dx g) shape (u t none) r <= C * (tau ^ 4 + largest (g_dx g) ^ 2).
  Proof.
    destruct (local_error lengths w t0 t1 u TS 4) as (C & PC & HC).
    exists ((t1 - t0) * C). intros c shape enum x ord rpow g caches attr tau win state sv AC (W0 & W1 & W2) Hs Ht Cr Hsv.
    assert (T01 : t0 <= t1) by (apply W2; eapply nth_error_In; eauto).
    destruct (shape_ok c lengths shape _ enum ord g caches attr AC) as [Ls Hn].
    pose proof (sides_length c lengths shape _ enum ord g caches attr AC) as Ll.
    pose proof (steps_pos c lengths shape _ enum ord g caches attr AC) as Hd.
    rewrite (dx_ok c lengths shape _ enum ord g caches attr AC) in *. set (h := largest (spacings lengths shape)) in *.
    assert (Hh : forall k, (k < n)%nat -> dxf lengths shape k <= h).
    { intros k Hk. apply (ConsistMain.spacing_bounds (axes c) lengths Ll (sides_pos c lengths shape _ enum ord g caches attr AC) shape); auto. lia. }
    set (ex := fun t => cut shape (sample (spacings lengths shape) (u t none))).
    set (Q := C * (tau ^ 4 + h ^ 2)). set (S := sqrt (points shape)).
    assert (PQ : 0 <= Q) by (unfold Q; apply Rmult_le_pos; auto; nra).
    assert (PS : 0 <= S) by apply sqrt_pos.
    set (err := fun t r => @vadd RF (list nat) (view shape r) (@vscale RF (list nat) (-1) (ex t))).
    destruct (forecast_keeps (@rk4 RF (list nat)) (generated_trend enum x ord rpow (axes c) g caches attr (advection c))
      (fun t r => t0 <= t <= t1 /\ norm (dot shape) (err t r) <= S * ((t - t0) * Q)) win state sv t0 Hsv W0) as (traj & E & H).
    - split; [lra|]. assert (Z : err t0 state = cut shape (fun _ => 0)).
      { apply functional_extensionality. intros js. unfold err, view, ex, cut, vadd, vscale, sample. cbn. destruct (inb shape js) eqn:I; [|ring].
        apply inb_iff in I. rewrite Hs by auto. ring. }
      rewrite Z. replace (t0 - t0) with 0 by ring. rewrite Rmult_0_l. apply norm_of_bound; [lra|]. intros js Hj. rewrite cut_in by auto. rewrite Rabs_R0. lra.
    - intros k t t' r Hk1 Hk2 ([T1 T2] & HE).
      destruct (W1 k t t' Hk1 Hk2) as [S1 S2]. pose proof (W2 t' (nth_error_In _ _ Hk2)) as S3.
      destruct (step_view c lengths shape _ enum x ord rpow g caches attr AC SRk4 t (t' - t) r) as (r' & Er & Ev).
      exists r'. split; [exact Er|]. split; [lra|]. cbn [onestep_order] in Ev.
      assert (Ef : flow lengths shape (wind_along (map (fun v (_ : list nat) => v) ws)) = flow lengths shape (fun k _ => nth k ws 0)).
      { f_equal. apply functional_extensionality. intros k'. apply wind_const. }
      set (f := flow lengths shape (wind_along (map (fun v (_ : list nat) => v) ws))) in *.
      set (step := @exp_taylor RF (list nat) f (t' - t)%R 4).
      assert (Sp : err t' r' = @vadd RF (list nat) (step (err t r)) (@vadd RF (list nat) (step (ex t)) (@vscale RF (list nat) (-1) (ex t')))).
      { unfold err. rewrite Ev. unfold step. rewrite exp_sub_linear by apply flow_linear.
        apply functional_extensionality. intros js. unfold vadd, vscale. cbn. ring. }
      rewrite Sp. eapply Rle_trans; [apply norm_add, dot_inner|].
      assert (X1 : norm (dot shape) (step (err t r)) <= norm (dot shape) (err t r)).
      { unfold norm. apply sqrt_le_1_alt. apply (rk4_contracts c lengths shape _ enum ord g caches attr AC (fun k => Rabs (nth k ws 0)) (t' - t) tau); auto; try lra.
        - intros k' js' _ _. rewrite wind_const. reflexivity.
        - intros k' js' _ _. rewrite wind_const. lra. }
      assert (X2 : norm (dot shape) (@vadd RF (list nat) (step (ex t)) (@vscale RF (list nat) (-1) (ex t'))) <= S * ((t' - t) * Q)).
      { apply norm_of_bound; [apply Rmult_le_pos; lra|]. intros js Hj.
        pose proof (HC shape h t (t' - t) js ltac:(lia) Hn Hd Hh T1 ltac:(lra) ltac:(lra) Hj) as L. rewrite <- Ef in L. fold (ex t) in L. fold (step (ex t)) in L.
        replace (t + (t' - t)) with t' in L by ring.
        assert (Ee : @vadd RF (list nat) (step (ex t)) (@vscale RF (list nat) (-1) (ex t')) js = step (ex t) js - u t' none (grid_point (spacings lengths shape) js)).
        { unfold vadd, vscale. cbn [fadd fmul RF]. unfold ex at 2. rewrite cut_in by auto. unfold sample. cbn. ring. }
        rewrite Ee. eapply Rle_trans; [exact L|]. unfold Q. rewrite Rmult_assoc. apply Rmult_le_compat_l; [lra|]. apply Rmult_le_compat_l; auto.
        apply Rplus_le_compat_r. apply pow_incr. lra. }
      replace (S * ((t' - t0) * Q)) with (S * ((t - t0) * Q) + S * ((t' - t) * Q)) by ring. lra.
    - exists traj. split; [exact E|]. intros t Ht1 Ht2. destruct (H t Ht1 Ht2) as (r & G & [T1 T2] & HE).
      exists r. split; [exact G|].
      assert (PP : 0 < points shape).
      { clear - Hn. induction shape as [|m s IH]; cbn; [lra|]. apply Rmult_lt_0_compat; [apply (lt_INR 0); specialize (Hn m (or_introl eq_refl)); lia|].
        apply IH. intros; apply Hn; right; auto. }
      assert (PS' : 0 < S) by (apply sqrt_lt_R0; auto).
      unfold rms_error. rewrite sqrt_div_alt by auto. fold S.
      replace (sqrt (@gsum RF shape (fun js => (field r js - u t none (grid_point (spacings lengths shape) js)) * (field r js - u t none (grid_point (spacings lengths shape) js)))))
        with (norm (dot shape) (err t r)).
      + apply (Rmult_le_reg_r S); auto. unfold Rdiv. rewrite Rmult_assoc, Rinv_l, Rmult_1_r by lra. eapply Rle_trans; [exact HE|].
        rewrite (Rmult_comm S). apply Rmult_le_compat_r; [lra|]. unfold Q. rewrite Rmult_assoc. apply Rmult_le_compat_r; [exact PQ|lra].
      + unfold norm, dot. f_equal. apply gs_ext. intros js Hj.
        assert (Ee : err t r js = field r js - u t none (grid_point (spacings lengths shape) js)); [|rewrite Ee; reflexivity].
        unfold err, vadd, vscale. cbn [fadd fmul RF]. unfold view, ex. rewrite !cut_in by auto. unfold sample. cbn. ring.
  Qed.
End Converge.
