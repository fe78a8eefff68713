(** Second-order consistency of the mixed finite differences of a smooth field. *)
From Coq Require Import List Arith ZArith Lia Reals Lra FunctionalExtensionality.
From Verif Require Import PyBase Scalars FieldFacts FornbergModel FDSpec FornbergProofs FDProofs FDReal FDExprSpec ConsistSpec.
Import ListNotations.
Open Scope R_scope.

Lemma at_self (p : point) i : @at_coord RF p i (p i) = p.
Proof. apply functional_extensionality. intros j. unfold at_coord. destruct (Nat.eq_dec i j); subst; auto. Qed.
Lemma at_twice (p : point) i s s' : @at_coord RF (@at_coord RF p i s) i s' = @at_coord RF p i s'.
Proof. apply functional_extensionality. intros j. unfold at_coord. destruct (Nat.eq_dec i j); auto. Qed.
Lemma at_same (p : point) i s : @at_coord RF p i s i = s.
Proof. unfold at_coord. destruct (Nat.eq_dec i i); congruence. Qed.
Lemma at_other (p : point) i j s : i <> j -> @at_coord RF p i s j = p j.
Proof. unfold at_coord. destruct (Nat.eq_dec i j); congruence. Qed.
Lemma at_comm (p : point) i j s s' : i <> j ->
  @at_coord RF (@at_coord RF p i s) j s' = @at_coord RF (@at_coord RF p j s') i s.
Proof.
  intros N. apply functional_extensionality. intros k. unfold at_coord.
  destruct (Nat.eq_dec j k), (Nat.eq_dec i k); subst; congruence.
Qed.

Definition addm (a b : multi) : multi := fun i => (a i + b i)%nat.
Definition only (i o : nat) : multi := fun j => if Nat.eq_dec i j then o else O.
Definition total (ds : list (nat * nat)) : multi := fold_right (fun io => addm (only (fst io) (snd io))) none ds.

Lemma inc_addm i a b : inc i (addm a b) = addm (inc i a) b.
Proof. apply functional_extensionality. intros j. unfold inc, addm. destruct (Nat.eq_dec i j); lia. Qed.
Lemma addm_none a : addm a none = a.
Proof. apply functional_extensionality. intros j. unfold addm, none. lia. Qed.
Lemma addm_only_0 i a : addm a (only i 0) = a.
Proof. apply functional_extensionality. intros j. unfold addm, only. destruct (Nat.eq_dec i j); lia. Qed.
Lemma addm_only_S i k a : addm a (only i (S k)) = inc i (addm a (only i k)).
Proof. apply functional_extensionality. intros j. unfold addm, only, inc. destruct (Nat.eq_dec i j); lia. Qed.
Lemma addm_assoc a b c : addm a (addm b c) = addm (addm a b) c.
Proof. apply functional_extensionality. intros j. unfold addm. lia. Qed.
Lemma addm_comm a b : addm a b = addm b a.
Proof. apply functional_extensionality. intros j. unfold addm. lia. Qed.

(** ** one variable *)
Lemma central_bounded (m : nat) (x h B : R) (F : nat -> R -> R) : 0 < h ->
  (forall k y, (k < m)%nat -> derivable_pt_lim (F k) y (F (S k) y)) ->
  (forall y, Rabs (F m y) <= B) ->
  Rabs (@apply_stencil RF (@central RF m h) (F O) x h) <= B.
Proof.
  intros Hh C Hb.
  assert (G1 : forall m F, (forall k y, (k < m)%nat -> derivable_pt_lim (F k) y (F (S k) y)) ->
      (forall y, Rabs (F m y) <= B) -> forall x, Rabs (Nat.iter m (RD1 h) (F O) x) <= B).
  { clear - Hh. intros m. induction m as [|m IH]; intros F C Hb x; [apply Hb|].
    rewrite (iter_D1_swap h). apply (IH (fun k => RD1 h (F k))).
    - intros k y Hk. apply (chain_D1 h Hh F (S m) y 0); [lra| |lia|unfold near; rewrite Rminus_diag_eq, Rabs_R0; lra].
      intros k' y' Hk' _. apply C. lia.
    - intros y. unfold RD1.
      assert (T : Rabs (F m (y + h) - F m (y - h)) <= 2 * B * h).
      { apply (odd_bound1 y h B (Rlt_le _ _ Hh) (F m) (F (S m))); intros z _; [apply C; lia|apply Hb]. }
      unfold Rdiv. rewrite Rabs_mult, Rabs_inv, (Rabs_right (2 * h)) by lra.
      apply Rmult_le_reg_r with (2 * h); [lra|]. rewrite Rmult_assoc, Rinv_l by lra. lra. }
  assert (G2 : forall p F, (forall k y, (k < 2 * p)%nat -> derivable_pt_lim (F k) y (F (S k) y)) ->
      (forall y, Rabs (F (2 * p)%nat y) <= B) -> forall x, Rabs (Nat.iter p (RD2 h) (F O) x) <= B).
  { clear - Hh. intros p. induction p as [|p IH]; intros F C Hb x; [apply Hb|].
    rewrite (iter_D2_swap h). apply (IH (fun k => RD2 h (F k))).
    - intros k y Hk. apply (chain_D2 h Hh F (2 * S p) y 0); [lra| |lia|unfold near; rewrite Rminus_diag_eq, Rabs_R0; lra].
      intros k' y' Hk' _. apply C. lia.
    - intros y. unfold RD2. replace (2 * S p)%nat with (S (S (2 * p))) in * by lia.
      assert (T : Rabs (F (2 * p)%nat (y + h) + F (2 * p)%nat (y - h) - 2 * F (2 * p)%nat y) <= B * h ^ 2).
      { apply (even_bound2 y h B (Rlt_le _ _ Hh) (F (2 * p)%nat) (F (S (2 * p))) (F (S (S (2 * p)))));
          intros z _; [apply C; lia|apply C; lia|apply Hb]. }
      assert (Hq : 0 < h * h) by (apply Rmult_lt_0_compat; auto).
      unfold Rdiv. rewrite Rabs_mult, Rabs_inv, (Rabs_right (h * h)) by lra.
      apply Rmult_le_reg_r with (h * h); [lra|]. rewrite Rmult_assoc, Rinv_l by lra.
      match goal with |- Rabs ?a * 1 <= _ => match type of T with Rabs ?b <= _ => replace a with b by ring end end.
      replace (B * (h * h)) with (B * h ^ 2) by ring. lra. }
  destruct (Nat.Even_or_Odd m) as [[p ->]|[p ->]].
  - pose proof (apply_central_even RF h ltac:(simpl; lra) p (F O) x) as A. rewrite A. clear A.
    rewrite iter_RD2. apply G2; auto.
  - pose proof (apply_central_odd RF h ltac:(simpl; lra) p (F O) x) as A. rewrite A. clear A.
    rewrite iter_RD1. apply G1; auto.
Qed.

Section Fields.
  Variable n : nat.
  Notation family := (multi -> point -> R).

  Lemma slice (W : family) (D : derivatives_of n W) a i p s : (i < n)%nat ->
    derivable_pt_lim (fun s => W a (@at_coord RF p i s)) s (W (inc i a) (@at_coord RF p i s)).
  Proof.
    intros Hi. pose proof (D a i (@at_coord RF p i s) Hi) as H. rewrite at_same in H.
    eapply derivable_pt_lim_ext; [|exact H]. intros s'. cbv beta. rewrite at_twice. reflexivity.
  Qed.

  Lemma partial_apply (dx : nat -> R) i o (U : point -> R) p :
    @partial RF dx i o U p = @apply_stencil RF (@central RF o (dx i)) (fun s => U (@at_coord RF p i s)) (p i) (dx i).
  Proof. reflexivity. Qed.

  (** along one coordinate: bounded by the derivative, and consistent *)
  Lemma partial_bounded (W : family) (D : derivatives_of n W) (dx : nat -> R) i o a B p : (i < n)%nat -> 0 < dx i ->
    (forall q, Rabs (W (addm a (only i o)) q) <= B) -> Rabs (@partial RF dx i o (W a) p) <= B.
  Proof.
    intros Hi Hd Hb. rewrite partial_apply.
    pose proof (central_bounded o (p i) (dx i) B (fun k s => W (addm a (only i k)) (@at_coord RF p i s)) Hd) as H.
    cbv beta in H. rewrite addm_only_0 in H. apply H.
    - intros k y Hk. rewrite addm_only_S. apply slice; auto.
    - intros y. apply Hb.
  Qed.
  Lemma partial_consistent (W : family) (D : derivatives_of n W) (dx : nat -> R) i o a B p : (i < n)%nat -> 0 < dx i ->
    (forall q, Rabs (W (addm a (only i (o + 2))) q) <= B) ->
    Rabs (@partial RF dx i o (W a) p - W (addm a (only i o)) p) <= INR o / 6 * B * dx i ^ 2.
  Proof.
    intros Hi Hd Hb. rewrite partial_apply.
    pose proof (stencil_consistent o (p i) (dx i) B (fun k s => W (addm a (only i k)) (@at_coord RF p i s))
                 (@central RF o (dx i))) as H.
    cbv beta in H. rewrite addm_only_0 in H. rewrite at_self in H. apply H.
    - lra.
    - intros k y _ _. rewrite addm_only_S. apply slice; auto.
    - intros y _. apply Hb.
    - apply (stencil_central RF). simpl. lra.
  Qed.

  (** differentiation commutes with the differences *)
  Lemma dl_fold (l : list (Z * R)) (f f' : Z * R -> R -> R) s :
    (forall kw, derivable_pt_lim (f kw) s (f' kw s)) ->
    derivable_pt_lim (fun s => fold_right (fun kw acc => snd kw * f kw s + acc) 0 l) s
      (fold_right (fun kw acc => snd kw * f' kw s + acc) 0 l).
  Proof.
    intros H. induction l as [|kw l IH]; [apply derivable_pt_lim_const|]. cbn [fold_right].
    apply (derivable_pt_lim_plus (fun s => snd kw * f kw s)); [|exact IH].
    apply (derivable_pt_lim_scal (f kw)). apply H.
  Qed.
  Lemma partial_family (W : family) (D : derivatives_of n W) (dx : nat -> R) j o :
    derivatives_of n (fun a => @partial RF dx j o (W a)).
  Proof.
    intros a i p Hi. unfold partial.
    apply (dl_fold (@central RF o (dx j))
      (fun kw s => W a (@at_coord RF (@at_coord RF p i s) j (@at_coord RF p i s j + @fz RF (fst kw) * dx j)%R))
      (fun kw s => W (inc i a) (@at_coord RF p j (p j + @fz RF (fst kw) * dx j)%R))).
    intros kw. destruct (Nat.eq_dec i j) as [->|N].
    - apply (derivable_pt_lim_ext (fun s : R => W a (@at_coord RF p j (s + @fz RF (fst kw) * dx j)%R))).
      { intros s. rewrite at_twice, at_same. reflexivity. }
      eapply dl_eq with (a := W (inc j a) (@at_coord RF p j (p j + @fz RF (fst kw) * dx j)%R) * (1 + 0)); [ring|].
      apply (derivable_pt_lim_comp (fun s => s + @fz RF (fst kw) * dx j) (fun s => W a (@at_coord RF p j s))).
      + apply (derivable_pt_lim_plus (fun t => t) (fun _ => @fz RF (fst kw) * dx j)); [apply derivable_pt_lim_id|apply derivable_pt_lim_const].
      + apply slice; auto.
    - pose proof (D a i (@at_coord RF p j (p j + @fz RF (fst kw) * dx j)%R) Hi) as H.
      rewrite at_other in H by auto.
      eapply derivable_pt_lim_ext; [|exact H].
      intros s. cbv beta. rewrite (at_comm _ i j) by auto. rewrite at_other by auto. reflexivity.
  Qed.
  Lemma partials_family (W : family) (D : derivatives_of n W) (dx : nat -> R) ds :
    derivatives_of n (fun a => @partials RF dx ds (W a)).
  Proof.
    induction ds as [|[j o] ds IH]; [exact D|].
    apply (partial_family (fun a => @partials RF dx ds (W a)) IH).
  Qed.
  Lemma minus_family (W V : family) : derivatives_of n W -> derivatives_of n V -> derivatives_of n (fun a p => W a p - V a p).
  Proof.
    intros D D' a i p Hi.
    apply (derivable_pt_lim_minus (fun s => W a (@at_coord RF p i s)) (fun s => V a (@at_coord RF p i s))); auto.
  Qed.
  Lemma shift_family (W : family) b : derivatives_of n W -> derivatives_of n (fun a => W (addm a b)).
  Proof. intros D a i p Hi. rewrite <- inc_addm. apply D; auto. Qed.

  Lemma partial_sub (dx : nat -> R) i o (U V : point -> R) p :
    @partial RF dx i o U p = @partial RF dx i o (fun q => U q - V q) p + @partial RF dx i o V p.
  Proof.
    unfold partial. induction (@central RF o (dx i)) as [|kw l IH]; cbn [fold_right]; cbn in *; [ring|].
    rewrite IH. ring.
  Qed.

  Theorem partials_consistent (W : family) : smooth n W -> forall ds, (forall i o, In (i, o) ds -> (i < n)%nat) ->
    forall a, exists C, 0 <= C /\ forall (dx : nat -> R) h, (forall i, (i < n)%nat -> 0 < dx i <= h) ->
      forall p, Rabs (@partials RF dx ds (W a) p - W (addm a (total ds)) p) <= C * h ^ 2.
  Proof.
    intros [D HB]. induction ds as [|[i o] ds IH]; intros Hn a.
    - exists 0. split; [lra|]. intros dx h _ p. cbn [partials fold_right total].
      rewrite addm_none. rewrite Rminus_diag_eq by auto. rewrite Rabs_R0. lra.
    - assert (Hi : (i < n)%nat) by (apply (Hn i o); left; auto).
      destruct (IH ltac:(intros; eapply Hn; right; eauto) (addm a (only i o))) as (C1 & P1 & H1).
      destruct (HB (addm (addm a (total ds)) (only i (o + 2)))) as (B & H2).
      assert (PB : 0 <= B) by (eapply Rle_trans; [apply Rabs_pos|apply (H2 (fun _ => 0))]).
      exists (C1 + INR o / 6 * B). split.
      { apply Rplus_le_le_0_compat; auto. apply Rmult_le_pos; auto. pose proof (pos_INR o). lra. }
      intros dx h Hdx p. specialize (Hdx i Hi) as Hdi. specialize (H1 dx h Hdx).
      change (@partials RF dx ((i, o) :: ds) (W a)) with (@partial RF dx i o (@partials RF dx ds (W a))).
      rewrite (partial_sub dx i o _ (W (addm a (total ds)))).
      set (E := fun b q => @partials RF dx ds (W b) q - W (addm b (total ds)) q).
      assert (DE : derivatives_of n E).
      { apply (minus_family (fun b => @partials RF dx ds (W b)) (fun b => W (addm b (total ds)))).
        - apply partials_family; auto.
        - apply shift_family; auto. }
      pose proof (partial_bounded E DE dx i o a (C1 * h ^ 2) p Hi ltac:(lra) H1) as A1.
      pose proof (partial_consistent W D dx i o (addm a (total ds)) B p Hi ltac:(lra) H2) as A2.
      replace (addm a (total ((i, o) :: ds))) with (addm (addm a (total ds)) (only i o)).
      2:{ cbn [total fold_right fst snd]. fold (total ds). rewrite <- addm_assoc. f_equal. apply addm_comm. }
      unfold E in A1.
      match goal with |- Rabs (?u + ?v - ?w) <= _ => replace (u + v - w) with (u + (v - w)) by ring end.
      eapply Rle_trans; [apply Rabs_triang|].
      assert (dx i ^ 2 <= h ^ 2) by (apply pow_incr; lra).
      assert (0 <= INR o / 6 * B) by (apply Rmult_le_pos; auto; pose proof (pos_INR o); lra).
      assert (INR o / 6 * B * dx i ^ 2 <= INR o / 6 * B * h ^ 2) by (apply Rmult_le_compat_l; auto).
      rewrite Rmult_plus_distr_r. lra.
  Qed.
End Fields.
