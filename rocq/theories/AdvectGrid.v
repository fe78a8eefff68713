(** The centred transport on a periodic grid: sums, skewness and bounds. *)
From Coq Require Import List Arith ZArith Bool Reals String Lia Lra Psatz Permutation FunctionalExtensionality.
From Verif Require Import PyBase PyBaseFacts Scalars FieldFacts FDExprModel FDExprSpec FDExprProofs FDSpec FDReal GridModel GridSpec GridProofs GridMore
  ConsistSpec ConsistMain SchemesModel SchemesSpec SchemesProofs EnergySpec EnergyProofs AdvectModel AdvectSpec AdvectTrend.
Import ListNotations.
Open Scope R_scope.

(** ** sums over the grid *)
Definition GS (shape : list nat) (f : list nat -> R) : R := @gsum RF shape f.
Section Sums.
  Variable shape : list nat.
  Notation gs := (GS shape).
  Lemma gs_ext (f g : list nat -> R) : (forall js, in_range shape js -> f js = g js) -> gs f = gs g.
  Proof. apply (gsum_ext RF). Qed.
  Lemma gs_add (f : list nat -> R) (g : list nat -> R) : gs (fun js => f js + g js) = gs f + gs g.
  Proof. exact (gsum_add RF shape f g). Qed.
  Lemma gs_scale (c : R) (f : list nat -> R) : gs (fun js => c * f js) = c * gs f.
  Proof. exact (gsum_scale RF shape c f). Qed.
  Lemma gs_zero : gs (fun _ => 0) = 0.
  Proof. exact (gsum_zero RF shape). Qed.
  Lemma gs_opp (f : list nat -> R) : gs (fun js => - f js) = - gs f.
  Proof. replace (- gs f) with (-1 * gs f) by ring. rewrite <- gs_scale. apply gs_ext. intros; ring. Qed.
  Lemma gs_list {X} (l : list X) (f : X -> list nat -> R) :
    gs (fun js => fold_right Rplus 0 (map (fun k => f k js) l)) = fold_right Rplus 0 (map (fun k => gs (f k)) l).
  Proof.
    induction l as [|a l IH]; [apply gs_zero|]. cbn [map fold_right]. rewrite <- IH. apply (gs_add (f a)).
  Qed.
  Lemma gs_wrap disp (f : list nat -> R) : List.length disp = List.length shape -> gs (fun js => f (wrap shape disp js)) = gs f.
  Proof. intros H. exact (gsum_wrap RF shape disp f H). Qed.
End Sums.
Lemma fsum_nonneg n (f : nat -> R) : (forall i, (i < n)%nat -> 0 <= f i) -> 0 <= @fsum RF n f.
Proof.
  induction n as [|n IH]; intros H; cbn; [lra|]. apply Rplus_le_le_0_compat; [apply IH; intros; apply H; lia|apply H; lia].
Qed.
Lemma gs_nonneg shape : forall f : list nat -> R, (forall js, in_range shape js -> 0 <= f js) -> 0 <= GS shape f.
Proof.
  unfold GS.
  induction shape as [|n shape IH]; intros f H; [apply H; constructor|]. cbn [gsum]. apply fsum_nonneg. intros i Hi.
  apply IH. intros js Hj. apply H. constructor; auto.
Qed.
Lemma gs_le shape (f g : list nat -> R) : (forall js, in_range shape js -> f js <= g js) -> GS shape f <= GS shape g.
Proof.
  intros H. assert (P : 0 <= GS shape (fun js => g js + - f js)) by (apply gs_nonneg; intros js Hj; specialize (H js Hj); lra).
  rewrite (gs_add shape g (fun js => - f js)), gs_opp in P. lra.
Qed.
Lemma fsum_const n (c : R) : @fsum RF n (fun _ => c) = INR n * c.
Proof. induction n as [|n IH]; [cbn; ring|]. rewrite S_INR. cbn [fsum]. rewrite IH. cbn. ring. Qed.
Lemma gs_const shape (c : R) : GS shape (fun _ => c) = points shape * c.
Proof.
  unfold GS.
  induction shape as [|n shape IH]; [cbn; ring|]. cbn [gsum points fold_right]. fold (points shape).
  transitivity (@fsum RF n (fun _ => points shape * c)); [|rewrite fsum_const; change (INR n * (points shape * c) = INR n * points shape * c); ring].
  apply (fsum_ext RF). intros; apply IH.
Qed.

Section Moves.
  Variables (lengths : list R) (shape : list nat).
  Hypothesis Hd : forall k, (k < List.length shape)%nat -> 0 < step_of lengths shape k.
  Notation gs := (GS shape).
  Notation slope := (slope lengths shape).
  Notation zeros := (repeat 0%Z (List.length shape)).

  Lemma addz_length k s : List.length (addz k s zeros) = List.length shape.
  Proof. unfold addz. rewrite set_nth_length, repeat_length. reflexivity. Qed.
  Lemma next_in k js : (k < List.length shape)%nat -> in_range shape js -> in_range shape (next shape k js).
  Proof. intros Hk H. rewrite <- wrap_next by auto. apply wrap_in_range; auto. apply addz_length. Qed.
  Lemma prev_in k js : (k < List.length shape)%nat -> in_range shape js -> in_range shape (prev shape k js).
  Proof. intros Hk H. rewrite <- wrap_prev by auto. apply wrap_in_range; auto. apply addz_length. Qed.
  Lemma gs_next k f : (k < List.length shape)%nat -> gs (fun js => f (next shape k js)) = gs f.
  Proof.
    intros Hk. rewrite <- (gs_wrap shape (addz k 1 zeros) f) by apply addz_length.
    apply gs_ext. intros js Hj. rewrite wrap_next by auto. reflexivity.
  Qed.
  Lemma gs_prev k f : (k < List.length shape)%nat -> gs (fun js => f (prev shape k js)) = gs f.
  Proof.
    intros Hk. rewrite <- (gs_wrap shape (addz k (-1) zeros) f) by apply addz_length.
    apply gs_ext. intros js Hj. rewrite wrap_prev by auto. reflexivity.
  Qed.
  Lemma nth_replace k v : forall js, (k < List.length js)%nat -> nth k (replace k v js) O = v.
  Proof. induction k as [|k IH]; intros [|j js] H; cbn in *; try lia; auto. apply IH. lia. Qed.
  Lemma replace_twice k u v : forall js, replace k v (replace k u js) = replace k v js.
  Proof. induction k as [|k IH]; intros [|j js]; cbn; auto. f_equal. apply IH. Qed.
  Lemma replace_nth k : forall js, replace k (nth k js O) js = js.
  Proof. induction k as [|k IH]; intros [|j js]; cbn; auto. f_equal. apply IH. Qed.
  Lemma in_length js : in_range shape js -> List.length js = List.length shape.
  Proof. apply ConsistMain.in_range_length. Qed.
  Lemma prev_next k js : (k < List.length shape)%nat -> in_range shape js -> prev shape k (next shape k js) = js.
  Proof.
    intros Hk H. unfold prev, next. rewrite nth_replace by (rewrite in_length; auto). rewrite replace_twice.
    transitivity (replace k (nth k js O) js); [f_equal|apply replace_nth]. pose proof (in_range_nth _ _ _ H Hk) as Hj.
    set (n := nth k shape O) in *. set (j := nth k js O) in *.
    destruct (Nat.eq_dec (j + 1) n) as [E|E].
    - rewrite E, Nat.mod_same by lia. replace (0 + n - 1)%nat with j by lia. apply Nat.mod_small; lia.
    - rewrite (Nat.mod_small (j + 1)) by lia. replace (j + 1 + n - 1)%nat with (j + 1 * n)%nat by lia.
      rewrite Nat.mod_add by lia. apply Nat.mod_small; lia.
  Qed.
  Lemma next_prev k js : (k < List.length shape)%nat -> in_range shape js -> next shape k (prev shape k js) = js.
  Proof.
    intros Hk H. unfold prev, next. rewrite nth_replace by (rewrite in_length; auto). rewrite replace_twice.
    transitivity (replace k (nth k js O) js); [f_equal|apply replace_nth]. pose proof (in_range_nth _ _ _ H Hk) as Hj.
    set (n := nth k shape O) in *. set (j := nth k js O) in *.
    destruct (Nat.eq_dec j 0) as [E|E].
    - rewrite E, (Nat.mod_small (0 + n - 1)) by lia. replace (0 + n - 1 + 1)%nat with n by lia. apply Nat.mod_same; lia.
    - replace (j + n - 1)%nat with (j - 1 + 1 * n)%nat by lia. rewrite Nat.mod_add by lia. rewrite (Nat.mod_small (j - 1)) by lia.
      replace (j - 1 + 1)%nat with j by lia. apply Nat.mod_small; lia.
  Qed.

  (** summation by parts *)
  Lemma gs_shift k (f g : list nat -> R) : (k < List.length shape)%nat ->
    gs (fun js => f js * g (next shape k js)) = gs (fun js => f (prev shape k js) * g js).
  Proof.
    intros Hk. rewrite <- (gs_next k (fun js => f (prev shape k js) * g js)) by auto.
    apply gs_ext. intros js Hj. rewrite prev_next by auto. reflexivity.
  Qed.
  Lemma slope_parts k (f g : list nat -> R) : (k < List.length shape)%nat ->
    gs (fun js => f js * slope k g js) = - gs (fun js => slope k f js * g js).
  Proof.
    intros Hk. pose proof (Hd k Hk). set (h := step_of lengths shape k) in *.
    transitivity (/ (2 * h) * (gs (fun js => f js * g (next shape k js)) + - gs (fun js => f js * g (prev shape k js)))).
    { rewrite <- gs_opp, <- gs_add, <- gs_scale. apply gs_ext. intros js _. unfold AdvectSpec.slope. fold h. field. lra. }
    transitivity (/ (2 * h) * (gs (fun js => f (prev shape k js) * g js) + - gs (fun js => f (next shape k js) * g js))).
    { f_equal. f_equal; [apply gs_shift; auto|]. f_equal.
      rewrite (gs_ext shape (fun js => f js * g (prev shape k js)) (fun js => g (prev shape k js) * f js)) by (intros; ring).
      rewrite <- (gs_shift k g f) by auto. apply gs_ext. intros; ring. }
    rewrite <- gs_opp, <- gs_add, <- gs_scale, <- (gs_opp shape (fun js => slope k f js * g js)).
    apply gs_ext. intros js _. unfold AdvectSpec.slope. fold h. field. lra.
  Qed.
  Lemma slope_bound k (a : list nat -> R) : (k < List.length shape)%nat ->
    step_of lengths shape k ^ 2 * gs (fun js => slope k a js * slope k a js) <= gs (fun js => a js * a js).
  Proof.
    intros Hk. pose proof (Hd k Hk). set (h := step_of lengths shape k) in *.
    rewrite <- gs_scale.
    apply Rle_trans with (gs (fun js => / 2 * (a (next shape k js) * a (next shape k js)) + / 2 * (a (prev shape k js) * a (prev shape k js)))).
    - apply gs_le. intros js _. unfold AdvectSpec.slope. fold h.
      set (p := a (next shape k js)). set (q := a (prev shape k js)).
      replace (h ^ 2 * ((p - q) / (2 * h) * ((p - q) / (2 * h)))) with ((p - q) ^ 2 / 4) by (field; lra).
      assert (0 <= (p + q) ^ 2) by (apply pow2_ge_0). cbn in *. lra.
    - rewrite gs_add, !gs_scale, (gs_next k (fun js => a js * a js)), (gs_prev k (fun js => a js * a js)) by auto. lra.
  Qed.
  Lemma slope_ext k (a b : list nat -> R) js : (k < List.length shape)%nat -> in_range shape js ->
    (forall js, in_range shape js -> a js = b js) -> slope k a js = slope k b js.
  Proof. intros Hk H E. unfold AdvectSpec.slope. rewrite !E by (auto using next_in, prev_in). reflexivity. Qed.
  Lemma slope_own k (w a : list nat -> R) js : (k < List.length shape)%nat -> in_range shape js ->
    (forall js, in_range shape js -> w (next shape k js) = w js) ->
    slope k (fun js => w js * a js) js = w js * slope k a js.
  Proof.
    intros Hk H E. unfold AdvectSpec.slope. rewrite E by auto.
    assert (Ep : w (prev shape k js) = w js). { rewrite <- (E (prev shape k js)) by (auto using prev_in). rewrite next_prev by auto. reflexivity. }
    rewrite Ep. unfold Rdiv. ring.
  Qed.

  (** ** the operator on the fields of the grid *)
  Fixpoint inb (shape js : list nat) : bool :=
    match shape, js with
    | [], [] => true
    | n :: s, j :: r => Nat.ltb j n && inb s r
    | _, _ => false
    end.
  Lemma inb_iff s : forall js, inb s js = true <-> in_range s js.
  Proof.
    induction s as [|n s IH]; intros [|j js]; cbn; split; intros H; try discriminate; try solve [constructor|inversion H].
    - apply andb_true_iff in H. destruct H as [H1 H2]. apply Nat.ltb_lt in H1. constructor; auto. apply IH; auto.
    - inversion H; subst. apply andb_true_iff. split; [apply Nat.ltb_lt; auto|apply IH; auto].
  Qed.
  Definition cut (a : list nat -> R) : list nat -> R := fun js => if inb shape js then a js else 0.
  Lemma cut_in a js : in_range shape js -> cut a js = a js.
  Proof. intros H. apply inb_iff in H. unfold cut. rewrite H. reflexivity. Qed.
  Lemma cut_eq a b : (forall js, in_range shape js -> a js = b js) -> cut a = cut b.
  Proof.
    intros H. apply functional_extensionality. intros js. unfold cut. destruct (inb shape js) eqn:E; auto. apply H, inb_iff, E.
  Qed.
  Variable W : nat -> list nat -> R.
  Definition flow (a : list nat -> R) : list nat -> R := cut (transported lengths shape W a).
  Lemma flow_linear : @linear RF (list nat) (list nat) flow.
  Proof.
    split; intros; apply functional_extensionality; intros js; unfold flow, cut, vadd, vscale; cbn [fadd fmul RF F];
      destruct (inb shape js); cbn; try ring; unfold transported, over_axes;
      induction (seq 0 (List.length shape)) as [|k l IH]; cbn [map fold_right]; cbn in *; try ring.
    - match goal with |- - (?p + ?q) = _ => match type of IH with - ?q' = _ => assert (IH' : q = - (- q')) by (rewrite Ropp_involutive; reflexivity); rewrite IH', IH end end.
      unfold AdvectSpec.slope, Rdiv. ring.
    - match goal with |- - (?p + ?q) = _ => match type of IH with - ?q' = _ => assert (IH' : q = - (- q')) by (rewrite Ropp_involutive; reflexivity); rewrite IH', IH end end.
      unfold AdvectSpec.slope, Rdiv. ring.
  Qed.
  Definition dot (a b : list nat -> R) : R := gs (fun js => a js * b js).
  Lemma dot_inner : inner_product dot.
  Proof.
    unfold dot. split; intros.
    - apply gs_ext. intros; ring.
    - unfold vadd. cbn. rewrite <- gs_add. apply gs_ext. intros; ring.
    - unfold vscale. cbn. rewrite <- gs_scale. apply gs_ext. intros; ring.
    - apply gs_nonneg. intros js _. nra.
  Qed.
  Lemma flow_budget : forall a, gs (flow a) = gs (fun js => divergence lengths shape W js * a js).
  Proof.
    intros a. transitivity (gs (transported lengths shape W a)).
    { apply gs_ext. intros js H. apply cut_in; auto. }
    unfold transported, divergence, over_axes. rewrite gs_opp, gs_list.
    assert (E : gs (fun js => fold_right Rplus 0 (map (fun k => slope k (W k) js) (seq 0 (List.length shape))) * a js)
      = fold_right Rplus 0 (map (fun k => gs (fun js => slope k (W k) js * a js)) (seq 0 (List.length shape)))).
    { rewrite <- gs_list. apply gs_ext. intros js _. induction (seq 0 (List.length shape)) as [|k l IH]; cbn in *; [ring|]. rewrite <- IH. ring. }
    rewrite E. clear E. assert (S : forall k, In k (seq 0 (List.length shape)) -> (k < List.length shape)%nat) by (intros k Hk; apply in_seq in Hk; lia).
    induction (seq 0 (List.length shape)) as [|k l IH]; cbn [map fold_right]; [ring|].
    rewrite slope_parts by (apply S; left; auto). rewrite Ropp_plus_distr, IH by (intros; apply S; right; auto). ring.
  Qed.
  Lemma flow_skew : (forall k js, (k < List.length shape)%nat -> in_range shape js -> W k (next shape k js) = W k js) -> conservative dot flow.
  Proof.
    intros U a. unfold dot.
    transitivity (- fold_right Rplus 0 (map (fun k => gs (fun js => a js * (W k js * slope k a js))) (seq 0 (List.length shape)))).
    { rewrite <- gs_list, <- gs_opp. apply gs_ext. intros js H. unfold flow. rewrite cut_in by auto. unfold transported, over_axes.
      induction (seq 0 (List.length shape)) as [|k l IH]; cbn in *; [ring|].
      rewrite Ropp_plus_distr, Rmult_plus_distr_l, IH. ring. }
    assert (S : forall k, In k (seq 0 (List.length shape)) -> (k < List.length shape)%nat) by (intros k Hk; apply in_seq in Hk; lia).
    induction (seq 0 (List.length shape)) as [|k l IH]; cbn [map fold_right]; [ring|].
    assert (Hk : (k < List.length shape)%nat) by (apply S; left; auto).
    assert (Z : gs (fun js => a js * (W k js * slope k a js)) = 0).
    { assert (X : gs (fun js => a js * (W k js * slope k a js)) = - gs (fun js => a js * (W k js * slope k a js))); [|lra].
      transitivity (gs (fun js => (W k js * a js) * slope k a js)); [apply gs_ext; intros; ring|].
      rewrite slope_parts by auto. f_equal. apply gs_ext. intros js H. rewrite slope_own by auto. ring. }
    rewrite Z, Rplus_0_l. apply IH. intros; apply S; right; auto.
  Qed.

  (** the norm of the operator *)
  Variable V : nat -> R.
  Hypothesis HV : forall k js, (k < List.length shape)%nat -> in_range shape js -> Rabs (W k js) <= V k.
  Definition courant : R := over_axes shape (fun k => V k / step_of lengths shape k).
  Lemma V_pos k : (k < List.length shape)%nat -> (exists js, in_range shape js) -> 0 <= V k.
  Proof. intros Hk (js & H). apply Rle_trans with (Rabs (W k js)); [apply Rabs_pos|apply HV; auto]. Qed.
  Lemma join_squares p q A B x y : 0 <= p -> 0 <= q -> 0 <= A -> 0 <= B -> x * x <= p * A -> y * y <= q * B -> (x + y) * (x + y) <= (p + q) * (A + B).
  Proof.
    intros Hp Hq HA HB Hx Hy.
    assert (2 * (x * y) <= p * B + q * A); [|replace ((x + y) * (x + y)) with (x * x + 2 * (x * y) + y * y) by ring; lra].
    assert (N : 0 <= p * B + q * A) by (apply Rplus_le_le_0_compat; apply Rmult_le_pos; auto).
    destruct (Rle_dec (x * y) 0) as [L|L]; [lra|]. apply Rnot_le_lt in L.
    apply Rsqr_incr_0; unfold Rsqr; try lra.
    assert (x * x * (y * y) <= p * A * (q * B)) by (apply Rmult_le_compat; auto; apply Rle_0_sqr).
    assert (0 <= (p * B - q * A) * (p * B - q * A)) by apply Rle_0_sqr.
    replace (2 * (x * y) * (2 * (x * y))) with (4 * (x * x * (y * y))) by ring.
    replace ((p * B + q * A) * (p * B + q * A)) with ((p * B - q * A) * (p * B - q * A) + 4 * (p * A * (q * B))) by ring. lra.
  Qed.
  Lemma flow_at_most : (exists js, in_range shape js) -> at_most dot flow courant.
  Proof.
    intros NE a. unfold dot.
    assert (S : forall k, In k (seq 0 (List.length shape)) -> (k < List.length shape)%nat) by (intros k Hk; apply in_seq in Hk; lia).
    assert (PV := fun k Hk => V_pos k Hk NE).
    set (h := step_of lengths shape). set (p := fun k => V k / h k). set (A := fun k js => V k * h k * (slope k a js * slope k a js)).
    assert (Pp : forall k, (k < List.length shape)%nat -> 0 <= p k).
    { intros k Hk. unfold p. apply Rmult_le_pos; auto. apply Rlt_le, Rinv_0_lt_compat, Hd; auto. }
    apply Rle_trans with (gs (fun js => courant * over_axes shape (fun k => A k js))).
    - apply gs_le. intros js H. unfold flow. rewrite cut_in by auto. unfold transported. 
      replace (- over_axes shape (fun k => W k js * slope k a js) * - over_axes shape (fun k => W k js * slope k a js))
        with (over_axes shape (fun k => W k js * slope k a js) * over_axes shape (fun k => W k js * slope k a js)) by ring.
      unfold courant, over_axes. fold h.
      assert (G : 0 <= fold_right Rplus 0 (map p (seq 0 (List.length shape))) /\ 0 <= fold_right Rplus 0 (map (fun k => A k js) (seq 0 (List.length shape))) /\
        fold_right Rplus 0 (map (fun k => W k js * slope k a js) (seq 0 (List.length shape))) * fold_right Rplus 0 (map (fun k => W k js * slope k a js) (seq 0 (List.length shape)))
        <= fold_right Rplus 0 (map p (seq 0 (List.length shape))) * fold_right Rplus 0 (map (fun k => A k js) (seq 0 (List.length shape)))).
      { induction (seq 0 (List.length shape)) as [|k l IH]; cbn [map fold_right]; [lra|].
        destruct IH as (G1 & G2 & G3); [intros; apply S; right; auto|].
        assert (Hk : (k < List.length shape)%nat) by (apply S; left; auto). pose proof (Hd k Hk) as Hh. fold h in Hh.
        assert (PA : 0 <= A k js). { unfold A. apply Rmult_le_pos; [apply Rmult_le_pos; [auto|lra]|nra]. }
        split; [pose proof (Pp k Hk); lra|]. split; [lra|]. apply join_squares; auto.
        unfold p, A. replace (V k / h k * (V k * h k * (slope k a js * slope k a js))) with (V k * V k * (slope k a js * slope k a js)) by (field; lra).
        replace (W k js * slope k a js * (W k js * slope k a js)) with (W k js * W k js * (slope k a js * slope k a js)) by ring.
        apply Rmult_le_compat_r; [nra|]. pose proof (HV k js Hk H) as B. apply Rsqr_le_abs_1. rewrite (Rabs_pos_eq (V k)); auto. }
      apply G.
    - rewrite gs_scale. unfold over_axes. rewrite gs_list.
      assert (G : 0 <= fold_right Rplus 0 (map p (seq 0 (List.length shape))) /\ fold_right Rplus 0 (map (fun k => gs (A k)) (seq 0 (List.length shape))) <= fold_right Rplus 0 (map p (seq 0 (List.length shape))) * gs (fun js => a js * a js)).
      { induction (seq 0 (List.length shape)) as [|k l IH]; cbn [map fold_right]; [lra|].
        destruct IH as (G1 & G2); [intros; apply S; right; auto|].
        assert (Hk : (k < List.length shape)%nat) by (apply S; left; auto). pose proof (Hd k Hk) as Hh. fold h in Hh.
        split; [pose proof (Pp k Hk); lra|]. rewrite Rmult_plus_distr_r. apply Rplus_le_compat; auto.
        unfold A. rewrite (gs_scale shape (V k * h k) (fun js => slope k a js * slope k a js)).
        pose proof (slope_bound k a Hk) as SB. fold h in SB. unfold p.
        replace (V k * h k * gs (fun js => slope k a js * slope k a js)) with (V k / h k * (h k ^ 2 * gs (fun js => slope k a js * slope k a js))) by (field; lra).
        apply Rmult_le_compat_l; auto. apply Pp; auto. }
      replace (courant ^ 2 * gs (fun js => a js * a js)) with (courant * (courant * gs (fun js => a js * a js))) by ring.
      apply Rmult_le_compat_l; [apply G|]. apply G.
  Qed.
End Moves.
