(** Second-order consistency of the stencils for smooth real functions. *)
From Coq Require Import List Arith ZArith Lia Bool Reals Lra.
From Verif Require Import PyBase Scalars FieldFacts FornbergModel FDSpec FornbergProofs FDProofs.
Import ListNotations.

Lemma R_char0 : forall n : nat, Nat.iter (S n) (Rplus 1) 0%R <> 0%R.
Proof.
  intros n. assert (H : forall m : nat, (0 <= Nat.iter m (Rplus 1) 0)%R).
  { induction m; simpl; [lra|]. lra. }
  simpl. specialize (H n). lra.
Qed.
Definition RF : Fld := mkFld R 0%R 1%R Rplus Rmult Rminus Ropp Rdiv Rinv Rfield R_char0.

Open Scope R_scope.

(** ** a comparison lemma *)
Lemma compare_growth (phi phi' G G' : R -> R) (h : R) :
  0 <= h -> phi 0 = 0 -> G 0 = 0 ->
  (forall s, 0 <= s <= h -> derivable_pt_lim phi s (phi' s)) ->
  (forall s, 0 <= s <= h -> derivable_pt_lim G s (G' s)) ->
  (forall s, 0 <= s <= h -> Rabs (phi' s) <= G' s) ->
  Rabs (phi h) <= G h.
Proof.
  intros Hh P0 G0 Dp Dg B. destruct (Req_dec h 0) as [->|Hn].
  { rewrite P0, G0, Rabs_R0. lra. }
  assert (Hp : 0 < h) by lra. apply Rabs_le. split.
  - destruct (MVT_cor2 (fun s => phi s + G s) (fun s => phi' s + G' s) 0 h Hp) as (c & E & Hc).
    { intros c Hc. apply (derivable_pt_lim_plus phi G); auto. }
    specialize (B c ltac:(lra)). assert (0 <= phi' c + G' c).
    { pose proof (Rle_abs (- phi' c)). rewrite Rabs_Ropp in H. lra. }
    assert (0 <= (phi' c + G' c) * (h - 0)) by (apply Rmult_le_pos; lra). lra.
  - destruct (MVT_cor2 (fun s => G s - phi s) (fun s => G' s - phi' s) 0 h Hp) as (c & E & Hc).
    { intros c Hc. apply (derivable_pt_lim_minus G phi); auto. }
    specialize (B c ltac:(lra)). assert (0 <= G' c - phi' c).
    { pose proof (Rle_abs (phi' c)). lra. }
    assert (0 <= (G' c - phi' c) * (h - 0)) by (apply Rmult_le_pos; lra). lra.
Qed.

Lemma dl_shift_p (g g1 : R -> R) x s : derivable_pt_lim g (x + s) (g1 (x + s)) ->
  derivable_pt_lim (fun t => g (x + t)) s (g1 (x + s)).
Proof.
  intros H. replace (g1 (x + s)) with (g1 (x + s) * (0 + 1)) by ring.
  apply (derivable_pt_lim_comp (fun t => x + t) g); [|exact H].
  apply (derivable_pt_lim_plus (fun _ => x) (fun t => t)).
  - apply derivable_pt_lim_const.
  - apply derivable_pt_lim_id.
Qed.
Lemma dl_shift_m (g g1 : R -> R) x s : derivable_pt_lim g (x - s) (g1 (x - s)) ->
  derivable_pt_lim (fun t => g (x - t)) s (- g1 (x - s)).
Proof.
  intros H. replace (- g1 (x - s)) with (g1 (x - s) * (0 - 1)) by ring.
  apply (derivable_pt_lim_comp (fun t => x - t) g); [|exact H].
  apply (derivable_pt_lim_minus (fun _ => x) (fun t => t)).
  - apply derivable_pt_lim_const.
  - apply derivable_pt_lim_id.
Qed.
Lemma dl_eq f x a b : a = b -> derivable_pt_lim f x a -> derivable_pt_lim f x b.
Proof. intros ->; auto. Qed.

Lemma dl_pow_c c n s : derivable_pt_lim (fun t => c * t ^ n) s (c * (INR n * s ^ pred n)).
Proof.
  apply (derivable_pt_lim_scal (fun t => t ^ n)). apply derivable_pt_lim_pow.
Qed.

(** derivative of the odd and even parts *)
Lemma dl_odd g g1 x s : derivable_pt_lim g (x + s) (g1 (x + s)) -> derivable_pt_lim g (x - s) (g1 (x - s)) ->
  derivable_pt_lim (fun t => g (x + t) - g (x - t)) s (g1 (x + s) + g1 (x - s)).
Proof.
  intros A B. eapply dl_eq; [|apply (derivable_pt_lim_minus (fun t => g (x + t)) (fun t => g (x - t)));
   [apply dl_shift_p; exact A|apply dl_shift_m; exact B]]. ring.
Qed.
Lemma dl_even g g1 x s : derivable_pt_lim g (x + s) (g1 (x + s)) -> derivable_pt_lim g (x - s) (g1 (x - s)) ->
  derivable_pt_lim (fun t => g (x + t) + g (x - t)) s (g1 (x + s) - g1 (x - s)).
Proof.
  intros A B. eapply dl_eq; [|apply (derivable_pt_lim_plus (fun t => g (x + t)) (fun t => g (x - t)));
   [apply dl_shift_p; exact A|apply dl_shift_m; exact B]]. ring.
Qed.

Definition near (x r y : R) : Prop := Rabs (y - x) <= r.
Lemma near_p x r s : 0 <= s <= r -> near x r (x + s).
Proof. intros H. unfold near. replace (x + s - x) with s by ring. rewrite Rabs_right; lra. Qed.
Lemma near_m x r s : 0 <= s <= r -> near x r (x - s).
Proof. intros H. unfold near. replace (x - s - x) with (- s) by ring. rewrite Rabs_Ropp, Rabs_right; lra. Qed.

Section Local.
  Variables (x h B : R).
  Hypothesis Hh : 0 <= h.

  (** |g(x+h) - g(x-h)| <= 2 B h if |g1| <= B *)
  Lemma odd_bound1 (g g1 : R -> R) :
    (forall y, near x h y -> derivable_pt_lim g y (g1 y)) ->
    (forall y, near x h y -> Rabs (g1 y) <= B) ->
    Rabs (g (x + h) - g (x - h)) <= 2 * B * h.
  Proof.
    intros D Hb.
    apply (compare_growth (fun t => g (x + t) - g (x - t)) (fun s => g1 (x + s) + g1 (x - s))
             (fun t => 2 * B * t) (fun s => 2 * B) h Hh).
    - replace (x + 0) with (x - 0) by ring. ring.
    - ring.
    - intros s Hs. apply dl_odd; apply D; [apply near_p|apply near_m]; lra.
    - intros s Hs. eapply dl_eq; [|apply (derivable_pt_lim_scal (fun t => t)); apply derivable_pt_lim_id]. ring.
    - intros s Hs. eapply Rle_trans; [apply Rabs_triang|].
      pose proof (Hb (x + s) (near_p x h s Hs)). pose proof (Hb (x - s) (near_m x h s Hs)). lra.
  Qed.
End Local.

Section Local2.
  Variables (x h B : R).
  Hypothesis Hh : 0 <= h.

  Lemma near_mono r r' y : r <= r' -> near x r y -> near x r' y.
  Proof. unfold near. lra. Qed.

  (** |g(x+h) + g(x-h) - 2 g(x)| <= B h^2 if |g2| <= B *)
  Lemma even_bound2 (g g1 g2 : R -> R) :
    (forall y, near x h y -> derivable_pt_lim g y (g1 y)) ->
    (forall y, near x h y -> derivable_pt_lim g1 y (g2 y)) ->
    (forall y, near x h y -> Rabs (g2 y) <= B) ->
    Rabs (g (x + h) + g (x - h) - 2 * g x) <= B * h ^ 2.
  Proof.
    intros D D1 Hb.
    apply (compare_growth (fun t => g (x + t) + g (x - t) - 2 * g x) (fun s => g1 (x + s) - g1 (x - s))
             (fun t => B * t ^ 2) (fun s => 2 * B * s) h Hh).
    - rewrite Rplus_0_r, Rminus_0_r. ring.
    - ring.
    - intros s Hs. eapply dl_eq; [|apply (derivable_pt_lim_minus (fun t => g (x + t) + g (x - t)) (fun _ => 2 * g x));
        [apply dl_even; apply D; [apply near_p|apply near_m]; lra|apply derivable_pt_lim_const]]. ring.
    - intros s Hs. eapply dl_eq; [|apply (dl_pow_c B 2)]. simpl. ring.
    - intros s Hs. apply (odd_bound1 x s B ltac:(lra) g1 g2).
      + intros y Hy. apply D1. eapply near_mono; [|exact Hy]; lra.
      + intros y Hy. apply Hb. eapply near_mono; [|exact Hy]; lra.
  Qed.
End Local2.

Section Local3.
  Variables (x h B : R).
  Hypothesis Hh : 0 <= h.
  (** |g(x+h) - g(x-h) - 2 h g1(x)| <= B h^3/3 if |g3| <= B *)
  Lemma odd_bound3 (g g1 g2 g3 : R -> R) :
    (forall y, near x h y -> derivable_pt_lim g y (g1 y)) ->
    (forall y, near x h y -> derivable_pt_lim g1 y (g2 y)) ->
    (forall y, near x h y -> derivable_pt_lim g2 y (g3 y)) ->
    (forall y, near x h y -> Rabs (g3 y) <= B) ->
    Rabs (g (x + h) - g (x - h) - 2 * g1 x * h) <= B / 3 * h ^ 3.
  Proof.
    intros D D1 D2 Hb.
    apply (compare_growth (fun t => g (x + t) - g (x - t) - 2 * g1 x * t)
             (fun s => g1 (x + s) + g1 (x - s) - 2 * g1 x)
             (fun t => B / 3 * t ^ 3) (fun s => B * s ^ 2) h Hh).
    - rewrite Rplus_0_r, Rminus_0_r. ring.
    - ring.
    - intros s Hs. eapply dl_eq; [|apply (derivable_pt_lim_minus (fun t => g (x + t) - g (x - t)) (fun t => 2 * g1 x * t));
        [apply dl_odd; apply D; [apply near_p|apply near_m]; lra
        |apply (derivable_pt_lim_scal (fun t => t)); apply derivable_pt_lim_id]]. ring.
    - intros s Hs. eapply dl_eq; [|apply (dl_pow_c (B/3) 3)]. simpl. field.
    - intros s Hs. apply (even_bound2 x s B ltac:(lra) g1 g2 g3).
      + intros y Hy. apply D1. eapply near_mono; [|exact Hy]; lra.
      + intros y Hy. apply D2. eapply near_mono; [|exact Hy]; lra.
      + intros y Hy. apply Hb. eapply near_mono; [|exact Hy]; lra.
  Qed.
End Local3.

Section Local4.
  Variables (x h B : R).
  Hypothesis Hh : 0 <= h.
  Lemma even_bound4 (g g1 g2 g3 g4 : R -> R) :
    (forall y, near x h y -> derivable_pt_lim g y (g1 y)) ->
    (forall y, near x h y -> derivable_pt_lim g1 y (g2 y)) ->
    (forall y, near x h y -> derivable_pt_lim g2 y (g3 y)) ->
    (forall y, near x h y -> derivable_pt_lim g3 y (g4 y)) ->
    (forall y, near x h y -> Rabs (g4 y) <= B) ->
    Rabs (g (x + h) + g (x - h) - 2 * g x - g2 x * h ^ 2) <= B / 12 * h ^ 4.
  Proof.
    intros D D1 D2 D3 Hb.
    apply (compare_growth (fun t => g (x + t) + g (x - t) - 2 * g x - g2 x * t ^ 2)
             (fun s => g1 (x + s) - g1 (x - s) - 2 * g2 x * s)
             (fun t => B / 12 * t ^ 4) (fun s => B / 3 * s ^ 3) h Hh).
    - rewrite Rplus_0_r, Rminus_0_r. ring.
    - ring.
    - intros s Hs. eapply dl_eq; [|apply (derivable_pt_lim_minus (fun t => g (x + t) + g (x - t) - 2 * g x) (fun t => g2 x * t ^ 2));
        [apply (derivable_pt_lim_minus (fun t => g (x + t) + g (x - t)) (fun _ => 2 * g x));
          [apply dl_even; apply D; [apply near_p|apply near_m]; lra|apply derivable_pt_lim_const]
        |apply (dl_pow_c (g2 x) 2)]]. simpl. ring.
    - intros s Hs. eapply dl_eq; [|apply (dl_pow_c (B/12) 4)]. simpl. field.
    - intros s Hs. apply (odd_bound3 x s B ltac:(lra) g1 g2 g3 g4).
      + intros y Hy. apply D1. eapply near_mono; [|exact Hy]; lra.
      + intros y Hy. apply D2. eapply near_mono; [|exact Hy]; lra.
      + intros y Hy. apply D3. eapply near_mono; [|exact Hy]; lra.
      + intros y Hy. apply Hb. eapply near_mono; [|exact Hy]; lra.
  Qed.
End Local4.

(** ** the operators over R *)
Definition RD1 (h : R) (f : R -> R) (x : R) : R := (f (x + h) - f (x - h)) / (2 * h).
Definition RD2 (h : R) (f : R -> R) (x : R) : R := (f (x + h) - 2 * f x + f (x - h)) / (h * h).

Lemma RD1_D1 h f x : D1 RF h f x = RD1 h f x.
Proof. unfold D1, RD1. cbn. replace (1 + 1) with 2 by ring. reflexivity. Qed.
Lemma RD2_D2 h f x : D2 RF h f x = RD2 h f x.
Proof. unfold D2, RD2. cbn. replace (1 + 1) with 2 by ring. reflexivity. Qed.

Lemma iter_succ_r' {A} (g : (R -> A) -> R -> A) m f x :
  Nat.iter (S m) g f x = Nat.iter m g (g f) x.
Proof.
  assert (E : Nat.iter (S m) g f = Nat.iter m g (g f)).
  { induction m; simpl; [reflexivity|]. simpl in IHm. rewrite IHm. reflexivity. }
  rewrite E. reflexivity.
Qed.

Section Consist.
  Variable h : R.
  Hypothesis Hh : 0 < h.

  (** a chain of derivatives up to order n, around x *)
  Definition chain (F : nat -> R -> R) (n : nat) (x r : R) : Prop :=
    forall k y, (k < n)%nat -> near x r y -> derivable_pt_lim (F k) y (F (S k) y).

  Lemma near_step_p x r y : near x r y -> near x (r + h) (y + h).
  Proof. unfold near. intros H. replace (y + h - x) with ((y - x) + h) by ring.
    eapply Rle_trans; [apply Rabs_triang|]. rewrite (Rabs_right h); lra. Qed.
  Lemma near_step_m x r y : near x r y -> near x (r + h) (y - h).
  Proof. unfold near. intros H. replace (y - h - x) with ((y - x) + - h) by ring.
    eapply Rle_trans; [apply Rabs_triang|]. rewrite Rabs_Ropp, (Rabs_right h); lra. Qed.
  Lemma near_trans x r y z : near x r y -> near y h z -> near x (r + h) z.
  Proof. unfold near. intros A B. replace (z - x) with ((z - y) + (y - x)) by ring.
    eapply Rle_trans; [apply Rabs_triang|]. lra. Qed.

  Lemma chain_D1 F n x r : 0 <= r -> chain F n x (r + h) -> chain (fun k => RD1 h (F k)) n x r.
  Proof.
    intros Hr C k y Hk Hy. unfold RD1. 
    assert (dl : derivable_pt_lim (fun t => F k (t + h) - F k (t - h)) y (F (S k) (y + h) - F (S k) (y - h))).
    { apply (derivable_pt_lim_minus (fun t => F k (t + h)) (fun t => F k (t - h))).
      - eapply dl_eq with (a := F (S k) (y + h) * (1 + 0)); [ring|].
        apply (derivable_pt_lim_comp (fun t => t + h) (F k)).
        + apply (derivable_pt_lim_plus (fun t => t) (fun _ => h)); [apply derivable_pt_lim_id|apply derivable_pt_lim_const].
        + apply C; auto. apply near_step_p; auto.
      - eapply dl_eq with (a := F (S k) (y - h) * (1 - 0)); [ring|].
        apply (derivable_pt_lim_comp (fun t => t - h) (F k)).
        + apply (derivable_pt_lim_minus (fun t => t) (fun _ => h)); [apply derivable_pt_lim_id|apply derivable_pt_lim_const].
        + apply C; auto. apply near_step_m; auto. }
    apply (derivable_pt_lim_scal _ (/ (2 * h))) in dl.
    unfold mult_real_fct in dl.
    eapply dl_eq; [|eapply derivable_pt_lim_ext; [|exact dl]]; [field; lra|].
    intros z. cbv beta. field. lra.
  Qed.

  Lemma chain_D2 F n x r : 0 <= r -> chain F n x (r + h) -> chain (fun k => RD2 h (F k)) n x r.
  Proof.
    intros Hr C k y Hk Hy. unfold RD2.
    assert (dl : derivable_pt_lim (fun t => F k (t + h) - 2 * F k t + F k (t - h)) y
                   (F (S k) (y + h) - 2 * F (S k) y + F (S k) (y - h))).
    { apply (derivable_pt_lim_plus (fun t => F k (t + h) - 2 * F k t) (fun t => F k (t - h))).
      - apply (derivable_pt_lim_minus (fun t => F k (t + h)) (fun t => 2 * F k t)).
        + eapply dl_eq with (a := F (S k) (y + h) * (1 + 0)); [ring|].
          apply (derivable_pt_lim_comp (fun t => t + h) (F k)).
          * apply (derivable_pt_lim_plus (fun t => t) (fun _ => h)); [apply derivable_pt_lim_id|apply derivable_pt_lim_const].
          * apply C; auto. apply near_step_p; auto.
        + apply (derivable_pt_lim_scal (F k)). apply C; auto. unfold near in *. lra.
      - eapply dl_eq with (a := F (S k) (y - h) * (1 - 0)); [ring|].
        apply (derivable_pt_lim_comp (fun t => t - h) (F k)).
        + apply (derivable_pt_lim_minus (fun t => t) (fun _ => h)); [apply derivable_pt_lim_id|apply derivable_pt_lim_const].
        + apply C; auto. apply near_step_m; auto. }
    apply (derivable_pt_lim_scal _ (/ (h * h))) in dl.
    unfold mult_real_fct in dl.
    eapply dl_eq; [|eapply derivable_pt_lim_ext; [|exact dl]]; [field; lra|].
    intros z. cbv beta. field. lra.
  Qed.

  Lemma iter_D1_swap m : forall f x, Nat.iter (S m) (RD1 h) f x = Nat.iter m (RD1 h) (RD1 h f) x.
  Proof. intros f x. apply iter_succ_r'. Qed.
  Lemma iter_D2_swap m : forall f x, Nat.iter (S m) (RD2 h) f x = Nat.iter m (RD2 h) (RD2 h f) x.
  Proof. intros f x. apply iter_succ_r'. Qed.

  Lemma near_self x r : 0 <= r -> near x r x.
  Proof. intros H. unfold near. replace (x - x) with 0 by ring. rewrite Rabs_R0. auto. Qed.

  Lemma consist_D1 B m : forall F x,
    chain F (m + 2) x (INR m * h) ->
    (forall y, near x (INR m * h) y -> Rabs (F (m + 2)%nat y) <= B) ->
    Rabs (Nat.iter m (RD1 h) (F O) x - F m x) <= INR m / 6 * B * h ^ 2.
  Proof.
    induction m as [|m IH]; intros F x C Hb.
    - simpl. replace (F O x - F O x) with 0 by ring. rewrite Rabs_R0. lra.
    - assert (Hm : INR (S m) * h = INR m * h + h) by (rewrite S_INR; ring).
      assert (Hm0 : 0 <= INR m * h) by (apply Rmult_le_pos; [apply pos_INR|lra]).
      rewrite iter_D1_swap.
      set (G := fun k => RD1 h (F k)).
      assert (A : Rabs (Nat.iter m (RD1 h) (G O) x - G m x) <= INR m / 6 * B * h ^ 2).
      { apply IH.
        - unfold G. apply chain_D1; auto. rewrite <- Hm. intros k y Hk Hy. apply C; auto. lia.
        - intros y Hy. unfold G, RD1.
          assert (T : Rabs (F (m + 2)%nat (y + h) - F (m + 2)%nat (y - h)) <= 2 * B * h).
          { apply (odd_bound1 y h B (Rlt_le _ _ Hh) (F (m+2)%nat) (F (S m + 2)%nat)).
            - intros z Hz. replace (S m + 2)%nat with (S (m + 2)) by lia. apply C; [lia|].
              rewrite Hm. eapply near_trans; eauto.
            - intros z Hz. apply Hb. rewrite Hm. eapply near_trans; eauto. }
          unfold Rdiv. rewrite Rabs_mult, Rabs_inv, (Rabs_right (2 * h)) by lra.
          apply Rmult_le_reg_r with (2 * h); [lra|]. rewrite Rmult_assoc, Rinv_l by lra. lra. }
      assert (Tm : Rabs (G m x - F (S m) x) <= B / 6 * h ^ 2).
      { assert (T : Rabs (F m (x + h) - F m (x - h) - 2 * F (S m) x * h) <= B / 3 * h ^ 3).
        { assert (N : forall y, near x h y -> near x (INR (S m) * h) y).
          { intros y Hy. unfold near in *. rewrite Hm. lra. }
          apply (odd_bound3 x h B (Rlt_le _ _ Hh) (F m) (F (S m)) (F (S (S m))) (F (S m + 2)%nat)).
          - intros y Hy. apply C; [lia|auto].
          - intros y Hy. apply C; [lia|auto].
          - intros y Hy. replace (S m + 2)%nat with (S (S (S m))) by lia. apply C; [lia|auto].
          - intros y Hy. apply Hb. auto. }
        replace (G m x - F (S m) x) with ((F m (x + h) - F m (x - h) - 2 * F (S m) x * h) * / (2 * h))
          by (unfold G, RD1; field; lra).
        rewrite Rabs_mult, Rabs_inv, (Rabs_right (2 * h)) by lra.
        apply Rmult_le_reg_r with (2 * h); [lra|]. rewrite Rmult_assoc, Rinv_l by lra.
        replace (B / 6 * h ^ 2 * (2 * h)) with (B / 3 * h ^ 3) by field. lra. }
      replace (Nat.iter m (RD1 h) (RD1 h (F O)) x - F (S m) x)
        with ((Nat.iter m (RD1 h) (G O) x - G m x) + (G m x - F (S m) x)) by (unfold G; ring).
      eapply Rle_trans; [apply Rabs_triang|].
      rewrite S_INR. replace ((INR m + 1) / 6 * B * h ^ 2) with (INR m / 6 * B * h ^ 2 + B / 6 * h ^ 2) by field.
      lra.
  Qed.

  Lemma consist_D2 B p : forall F x,
    chain F (2 * p + 2) x (INR p * h) ->
    (forall y, near x (INR p * h) y -> Rabs (F (2 * p + 2)%nat y) <= B) ->
    Rabs (Nat.iter p (RD2 h) (F O) x - F (2 * p)%nat x) <= INR p / 12 * B * h ^ 2.
  Proof.
    induction p as [|p IH]; intros F x C Hb.
    - simpl. replace (F O x - F O x) with 0 by ring. rewrite Rabs_R0. lra.
    - assert (Hm : INR (S p) * h = INR p * h + h) by (rewrite S_INR; ring).
      assert (Hm0 : 0 <= INR p * h) by (apply Rmult_le_pos; [apply pos_INR|lra]).
      assert (N : forall y, near x h y -> near x (INR (S p) * h) y).
      { intros y Hy. unfold near in *. rewrite Hm. lra. }
      assert (Hq : 0 < h * h) by (apply Rmult_lt_0_compat; auto).
      rewrite iter_D2_swap. replace (2 * S p)%nat with (S (S (2 * p))) in * by lia.
      set (G := fun k => RD2 h (F k)).
      assert (A : Rabs (Nat.iter p (RD2 h) (G O) x - G (2 * p)%nat x) <= INR p / 12 * B * h ^ 2).
      { apply IH.
        - unfold G. apply chain_D2; auto. rewrite <- Hm. intros k y Hk Hy. apply C; auto. lia.
        - intros y Hy. unfold G, RD2.
          assert (T : Rabs (F (2 * p + 2)%nat (y + h) + F (2 * p + 2)%nat (y - h) - 2 * F (2 * p + 2)%nat y) <= B * h ^ 2).
          { apply (even_bound2 y h B (Rlt_le _ _ Hh) (F (2 * p+2)%nat) (F (S (2 * p + 2))) (F (S (S (2 * p)) + 2)%nat)).
            - intros z Hz. apply C; [lia|]. rewrite Hm. eapply near_trans; eauto.
            - intros z Hz. replace (S (S (2 * p)) + 2)%nat with (S (S (2 * p + 2))) by lia. apply C; [lia|].
              rewrite Hm. eapply near_trans; eauto.
            - intros z Hz. apply Hb. rewrite Hm. eapply near_trans; eauto. }
          unfold Rdiv. rewrite Rabs_mult, Rabs_inv, (Rabs_right (h * h)) by lra.
          apply Rmult_le_reg_r with (h * h); [lra|]. rewrite Rmult_assoc, Rinv_l by lra.
          match goal with |- Rabs ?a * 1 <= _ => match type of T with Rabs ?b <= _ => replace a with b by ring end end.
          replace (B * (h * h)) with (B * h ^ 2) by ring. lra. }
      assert (Tm : Rabs (G (2 * p)%nat x - F (S (S (2 * p))) x) <= B / 12 * h ^ 2).
      { assert (T : Rabs (F (2 * p)%nat (x + h) + F (2 * p)%nat (x - h) - 2 * F (2 * p)%nat x
                          - F (S (S (2 * p))) x * h ^ 2) <= B / 12 * h ^ 4).
        { apply (even_bound4 x h B (Rlt_le _ _ Hh) (F (2*p)%nat) (F (S (2*p))) (F (S (S (2*p))))
                   (F (S (S (S (2 * p))))) (F (S (S (2 * p)) + 2)%nat)).
          1-3: intros y Hy; apply C; [lia|auto].
          - intros y Hy. replace (S (S (2 * p)) + 2)%nat with (S (S (S (S (2 * p))))) by lia. apply C; [lia|auto].
          - intros y Hy. apply Hb. auto. }
        replace (G (2 * p)%nat x - F (S (S (2 * p))) x)
          with ((F (2 * p)%nat (x + h) + F (2 * p)%nat (x - h) - 2 * F (2 * p)%nat x - F (S (S (2 * p))) x * h ^ 2) * / (h * h))
          by (unfold G, RD2; field; lra).
        rewrite Rabs_mult, Rabs_inv, (Rabs_right (h * h)) by lra.
        apply Rmult_le_reg_r with (h * h); [lra|]. rewrite Rmult_assoc, Rinv_l by lra.
        replace (B / 12 * h ^ 2 * (h * h)) with (B / 12 * h ^ 4) by ring. lra. }
      replace (Nat.iter p (RD2 h) (RD2 h (F O)) x - F (S (S (2 * p))) x)
        with ((Nat.iter p (RD2 h) (G O) x - G (2 * p)%nat x) + (G (2 * p)%nat x - F (S (S (2 * p))) x)) by (unfold G; ring).
      eapply Rle_trans; [apply Rabs_triang|].
      rewrite S_INR. replace ((INR p + 1) / 12 * B * h ^ 2) with (INR p / 12 * B * h ^ 2 + B / 12 * h ^ 2) by field.
      lra.
  Qed.
End Consist.

Lemma iter_ext_op (A B : (R -> R) -> R -> R) m :
  (forall f g, (forall x, f x = g x) -> forall x, A f x = B g x) ->
  forall f x, Nat.iter m A f x = Nat.iter m B f x.
Proof.
  intros H f. induction m; intros x; simpl; auto.
Qed.
Lemma iter_RD1 h m f x : Nat.iter m (D1 RF h) f x = Nat.iter m (RD1 h) f x.
Proof.
  apply (iter_ext_op (D1 RF h) (RD1 h)). intros a b E y. rewrite RD1_D1. unfold RD1. rewrite !E. reflexivity.
Qed.
Lemma iter_RD2 h m f x : Nat.iter m (D2 RF h) f x = Nat.iter m (RD2 h) f x.
Proof.
  apply (iter_ext_op (D2 RF h) (RD2 h)). intros a b E y. rewrite RD2_D2. unfold RD2. rewrite !E. reflexivity.
Qed.

Theorem stencil_consistent_pos (m : nat) (x h B : R) (F : nat -> R -> R) (l : list (Z * R)) :
  0 < h ->
  (forall k y, (k < m + 2)%nat -> Rabs (y - x) <= INR m * h -> derivable_pt_lim (F k) y (F (S k) y)) ->
  (forall y, Rabs (y - x) <= INR m * h -> Rabs (F (m + 2)%nat y) <= B) ->
  @stencil RF m x h = Some l ->
  Rabs (@apply_stencil RF l (F O) x h - F m x) <= INR m / 6 * B * h ^ 2.
Proof.
  intros Hh C Hb E. rewrite (stencil_central RF m x h) in E by (simpl; lra). inversion E; subst l. clear E.
  assert (HB : 0 <= B).
  { eapply Rle_trans; [apply Rabs_pos|apply (Hb x)]. replace (x - x) with 0 by ring. rewrite Rabs_R0.
    apply Rmult_le_pos; [apply pos_INR|lra]. }
  destruct (Nat.Even_or_Odd m) as [[p ->]|[p ->]].
  - pose proof (apply_central_even RF h ltac:(simpl; lra) p (F O) x) as A. rewrite A. clear A.
    rewrite iter_RD2.
    eapply Rle_trans; [apply (consist_D2 h Hh B)|].
    + intros k y Hk Hy. apply C; auto. unfold near in Hy. eapply Rle_trans; [exact Hy|].
      apply Rmult_le_compat_r; [lra|]. apply le_INR. lia.
    + intros y Hy. apply Hb. unfold near in Hy. eapply Rle_trans; [exact Hy|].
      apply Rmult_le_compat_r; [lra|]. apply le_INR. lia.
    + apply Rmult_le_compat_r; [apply pow2_ge_0|]. apply Rmult_le_compat_r; auto.
      rewrite mult_INR. simpl (INR 2). pose proof (pos_INR p). lra.
  - pose proof (apply_central_odd RF h ltac:(simpl; lra) p (F O) x) as A. rewrite A. clear A.
    rewrite iter_RD1. apply (consist_D1 h Hh B); auto.
Qed.

Lemma RD1_neg h f x : h <> 0 -> RD1 (- h) f x = RD1 h f x.
Proof. intros H. unfold RD1. replace (x - - h) with (x + h) by ring. replace (x + - h) with (x - h) by ring. field. auto. Qed.
Lemma RD2_neg h f x : h <> 0 -> RD2 (- h) f x = RD2 h f x.
Proof. intros H. unfold RD2. replace (x - - h) with (x + h) by ring. replace (x + - h) with (x - h) by ring. field. auto. Qed.

Lemma central_neg m (x h : R) (f : R -> R) : h <> 0 ->
  @apply_stencil RF (@central RF m (- h)%R) f x (- h)%R = @apply_stencil RF (@central RF m h) f x h.
Proof.
  intros Hh. assert (Hn : - h <> 0) by lra.
  destruct (Nat.Even_or_Odd m) as [[p ->]|[p ->]].
  - pose proof (apply_central_even RF (- h)%R Hn p f x) as A. pose proof (apply_central_even RF h Hh p f x) as B.
    rewrite A, B, !iter_RD2. apply iter_ext_op. intros a b E y. rewrite RD2_neg by auto. unfold RD2. rewrite !E. reflexivity.
  - pose proof (apply_central_odd RF (- h)%R Hn p f x) as A. pose proof (apply_central_odd RF h Hh p f x) as B.
    rewrite A, B, !iter_RD1. apply iter_ext_op. intros a b E y. rewrite RD1_neg by auto. unfold RD1. rewrite !E. reflexivity.
Qed.

Theorem stencil_consistent (m : nat) (x h B : R) (F : nat -> R -> R) (l : list (Z * R)) :
  h <> 0 ->
  (forall k y, (k < m + 2)%nat -> Rabs (y - x) <= INR m * Rabs h -> derivable_pt_lim (F k) y (F (S k) y)) ->
  (forall y, Rabs (y - x) <= INR m * Rabs h -> Rabs (F (m + 2)%nat y) <= B) ->
  @stencil RF m x h = Some l ->
  Rabs (@apply_stencil RF l (F O) x h - F m x) <= INR m / 6 * B * h ^ 2.
Proof.
  intros Hh C Hb E. destruct (Rcase_abs h) as [Hneg|Hpos].
  - rewrite (stencil_central RF m x h Hh) in E. inversion E; subst l. clear E.
    replace h with (- - h) by ring. rewrite central_neg by lra.
    rewrite (Rabs_left h Hneg) in *.
    replace ((- - h) ^ 2) with ((- h) ^ 2) by ring.
    apply stencil_consistent_pos; auto; [lra|].
    apply (stencil_central RF m x (- h)%R). simpl; lra.
  - rewrite (Rabs_right h Hpos) in *. apply stencil_consistent_pos; auto. lra.
Qed.

(** the step-size form: convergence as dx -> 0 *)
Corollary stencil_converges (m : nat) (x : R) (F : nat -> R -> R) (B r : R) :
  0 < r ->
  (forall k y, (k < m + 2)%nat -> Rabs (y - x) <= r -> derivable_pt_lim (F k) y (F (S k) y)) ->
  (forall y, Rabs (y - x) <= r -> Rabs (F (m + 2)%nat y) <= B) ->
  forall eps, 0 < eps -> exists delta, 0 < delta /\
    forall h l, h <> 0 -> Rabs h < delta -> @stencil RF m x h = Some l ->
      Rabs (@apply_stencil RF l (F O) x h - F m x) < eps.
Proof.
  intros Hr C Hb eps He.
  assert (HB : 0 <= B).
  { eapply Rle_trans; [apply Rabs_pos|apply (Hb x)]. replace (x - x) with 0 by ring. rewrite Rabs_R0. lra. }
  pose proof (pos_INR m) as Pm.
  set (c := INR m / 6 * B + 1). assert (Hc : 0 < c).
  { unfold c. assert (0 <= INR m / 6 * B) by (apply Rmult_le_pos; lra). lra. }
  set (d := Rmin 1 (Rmin (r / (INR m + 1)) (eps / c))).
  assert (H1 : 0 < r / (INR m + 1)) by (apply Rdiv_lt_0_compat; lra).
  assert (H2 : 0 < eps / c) by (apply Rdiv_lt_0_compat; lra).
  exists d. split; [unfold d; repeat apply Rmin_glb_lt; lra|].
  intros h l Hh Hd E.
  assert (D1 : Rabs h < 1) by (eapply Rlt_le_trans; [exact Hd|apply Rmin_l]).
  assert (D2 : Rabs h < r / (INR m + 1)).
  { eapply Rlt_le_trans; [exact Hd|]. unfold d. eapply Rle_trans; [apply Rmin_r|apply Rmin_l]. }
  assert (D3 : Rabs h < eps / c).
  { eapply Rlt_le_trans; [exact Hd|]. unfold d. eapply Rle_trans; [apply Rmin_r|apply Rmin_r]. }
  assert (Hp : 0 < Rabs h) by (apply Rabs_pos_lt; auto).
  assert (M : INR m * Rabs h <= r).
  { apply Rle_trans with ((INR m + 1) * (r / (INR m + 1))); [|right; field; lra].
    apply Rmult_le_compat; lra. }
  eapply Rle_lt_trans.
  - apply (stencil_consistent m x h B F l Hh); auto.
    + intros k y Hk Hy. apply C; auto. lra.
    + intros y Hy. apply Hb. lra.
  - assert (Hsq : h ^ 2 <= Rabs h).
    { rewrite <- Rsqr_pow2, Rsqr_abs. unfold Rsqr. rewrite <- (Rmult_1_r (Rabs h)) at 3.
      apply Rmult_le_compat_l; lra. }
    apply Rle_lt_trans with (c * Rabs h).
    + unfold c. assert (INR m / 6 * B * h ^ 2 <= INR m / 6 * B * Rabs h).
      { apply Rmult_le_compat_l; auto. apply Rmult_le_pos; lra. } lra.
    + apply Rlt_le_trans with (c * (eps / c)); [apply Rmult_lt_compat_l; auto|].
      right. field. lra.
Qed.
