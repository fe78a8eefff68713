(** Taylor bounds and a calculus of orders of magnitude, for the accuracy of the schemes. *)
From Coq Require Import List Arith Reals Lra Lia FunctionalExtensionality.
From Verif Require Import PyBase Scalars SchemesModel SchemesSpec ForecastModel FDReal OrderSpec.
Import ListNotations.
Open Scope R_scope.

(** ** Taylor polynomials *)
Fixpoint tay (n : nat) (d : nat -> R -> R) (t h : R) : R :=
  match n with O => 0 | S m => tay m d t h + d m t / INR (fact m) * h ^ m end.

Lemma tay_derive n d t s : derivable_pt_lim (tay (S n) d t) s (tay n (fun k => d (S k)) t s).
Proof.
  induction n as [|n IH].
  - cbn [tay]. eapply dl_eq; [|apply (derivable_pt_lim_plus (fun _ => 0) (fun h => d 0%nat t / INR (fact 0) * h ^ 0));
      [apply derivable_pt_lim_const|apply dl_pow_c]]. simpl. ring.
  - change (tay (S (S n)) d t) with (fun h => tay (S n) d t h + d (S n) t / INR (fact (S n)) * h ^ S n).
    eapply dl_eq; [|apply (derivable_pt_lim_plus (tay (S n) d t) (fun h => d (S n) t / INR (fact (S n)) * h ^ S n));
      [exact IH|apply dl_pow_c]].
    cbn [tay pred]. f_equal.
    replace (INR (fact (S n))) with (INR (S n) * INR (fact n)).
    2:{ rewrite <- mult_INR. f_equal. }
    field. split; [apply INR_fact_neq_0|apply not_0_INR; lia].
Qed.

Lemma tay_0 n d t : tay (S n) d t 0 = d 0%nat t.
Proof.
  induction n as [|n IH].
  - simpl. lra.
  - change (tay (S (S n)) d t 0) with (tay (S n) d t 0 + d (S n) t / INR (fact (S n)) * 0 ^ S n).
    rewrite IH, pow_ne_zero by lia. ring.
Qed.

Lemma taylor_bound n : forall (d : nat -> R -> R) t h M, 0 <= h -> 0 <= M ->
  (forall k s, (k < n)%nat -> t <= s <= t + h -> derivable_pt_lim (d k) s (d (S k) s)) ->
  (forall s, t <= s <= t + h -> Rabs (d n s) <= M) ->
  Rabs (d 0%nat (t + h) - tay n d t h) <= M * h ^ n.
Proof.
  induction n as [|n IH]; intros d t h M Hh HM D B.
  { simpl. rewrite Rminus_0_r, Rmult_1_r. apply B. lra. }
  apply (compare_growth (fun s => d 0%nat (t + s) - tay (S n) d t s)
           (fun s => d 1%nat (t + s) - tay n (fun k => d (S k)) t s)
           (fun s => M * s ^ S n) (fun s => M * (INR (S n) * s ^ n)) h Hh).
  - rewrite tay_0, Rplus_0_r. ring.
  - rewrite pow_ne_zero by lia. ring.
  - intros s Hs. apply (derivable_pt_lim_minus (fun s => d 0%nat (t + s)) (tay (S n) d t)).
    + apply dl_shift_p. apply (D 0%nat); [lia|lra].
    + apply tay_derive.
  - intros s Hs. apply dl_pow_c.
  - intros s Hs. eapply Rle_trans; [apply (IH (fun k => d (S k)) t s M)|].
    + lra.
    + exact HM.
    + intros k r Hk Hr. apply (D (S k)); [lia|lra].
    + intros r Hr. apply B. lra.
    + apply Rmult_le_compat_l; [exact HM|]. rewrite <- (Rmult_1_l (s ^ n)) at 1.
      apply Rmult_le_compat_r; [apply pow_le; lra|]. rewrite S_INR. pose proof (pos_INR n). lra.
Qed.

(** ** the schemes on real arrays *)
Lemma half_R : (half : RF) = / 2.
Proof. unfold half. simpl. unfold Rdiv. rewrite Rmult_1_l. f_equal. ring. Qed.
Lemma fnat2_R : (fnat 2 : RF) = 2. Proof. simpl. ring. Qed.
Lemma fnat6_R : (fnat 6 : RF) = 6. Proof. simpl. ring. Qed.

Section Schemes.
  Context {I : Type}.
  Notation A := (I -> R).
  Variable f : R -> A -> A.

  Definition euler_r t (u : A) h : A := fun i => u i + h * f t u i.
  Definition rk2_r t (u : A) h : A :=
    let k1 := f t u in
    let k2 := f (t + / 2 * h) (fun i => u i + h * / 2 * k1 i) in fun i => u i + h * k2 i.
  Definition rk4_r t (u : A) h : A :=
    let k1 := f t u in
    let k2 := f (t + h * / 2) (fun i => u i + h * / 2 * k1 i) in
    let k3 := f (t + h * / 2) (fun i => u i + h * / 2 * k2 i) in
    let k4 := f (t + h) (fun i => u i + h * k3 i) in
    fun i => u i + h / 6 * (k1 i + 2 * k2 i + 2 * k3 i + k4 i).
  Definition step_r s := match s with SEuler => euler_r | SRk2 => rk2_r | SRk4 => rk4_r end.

  Lemma step_is s t u h : onestep_fun s (@pure RF I f) t u h = Ok (step_r s t u h).
  Proof.
    destruct s.
    - reflexivity.
    - unfold onestep_fun, rk2, pure, bind. rewrite half_R. reflexivity.
    - unfold onestep_fun, rk4, pure, bind. rewrite half_R, fnat2_R, fnat6_R. reflexivity.
  Qed.
End Schemes.

(** ** orders of magnitude, uniform in time *)
Section Calculus.
  Context {I : Type}.
  Notation A := (I -> R).
  Variables (a b : R).
  Definition big (n : nat) (g : R -> R -> A) : Prop :=
    exists C h0, 0 <= C /\ 0 < h0 <= 1 /\ forall t h i, a < t -> t + h < b -> 0 < h <= h0 -> Rabs (g t h i) <= C * h ^ n.

  Lemma big_eq n g g' : (forall t h i, a < t -> t + h < b -> 0 < h -> g t h i = g' t h i) -> big n g -> big n g'.
  Proof.
    intros E (C & h0 & HC & Hh & H). exists C, h0. split; [exact HC|]. split; [exact Hh|].
    intros t h i Ht Hb Hp. rewrite <- E by (auto; lra). apply H; auto.
  Qed.
  Lemma big_add n g g' : big n g -> big n g' -> big n (fun t h i => g t h i + g' t h i).
  Proof.
    intros (C & h0 & HC & Hh & H) (C' & h0' & HC' & Hh' & H'). exists (C + C'), (Rmin h0 h0').
    split; [lra|]. split.
    { pose proof (Rmin_l h0 h0'). pose proof (Rmin_glb_lt h0 h0' 0). lra. }
    intros t h i Ht Hb Hp. pose proof (Rmin_l h0 h0'). pose proof (Rmin_r h0 h0').
    eapply Rle_trans; [apply Rabs_triang|]. rewrite Rmult_plus_distr_r.
    apply Rplus_le_compat; [apply H|apply H']; auto; lra.
  Qed.
  Lemma big_scal n c g : big n g -> big n (fun t h i => c * g t h i).
  Proof.
    intros (C & h0 & HC & Hh & H). exists (Rabs c * C), h0. split; [apply Rmult_le_pos; auto; apply Rabs_pos|].
    split; [exact Hh|]. intros t h i Ht Hb Hp. rewrite Rabs_mult, Rmult_assoc.
    apply Rmult_le_compat_l; [apply Rabs_pos|]. apply H; auto.
  Qed.
  Lemma big_h n g : big n g -> big (S n) (fun t h i => h * g t h i).
  Proof.
    intros (C & h0 & HC & Hh & H). exists C, h0. split; [exact HC|]. split; [exact Hh|].
    intros t h i Ht Hb Hp. rewrite Rabs_mult, (Rabs_right h) by lra.
    replace (C * h ^ S n) with (h * (C * h ^ n)) by (simpl; ring).
    apply Rmult_le_compat_l; [lra|]. apply H; auto.
  Qed.
  Lemma big_weaken n m g : (m <= n)%nat -> big n g -> big m g.
  Proof.
    intros L (C & h0 & HC & Hh & H). exists C, h0. split; [exact HC|]. split; [exact Hh|].
    intros t h i Ht Hb Hp. eapply Rle_trans; [apply H; auto|]. apply Rmult_le_compat_l; [exact HC|].
    replace n with (m + (n - m))%nat by lia. rewrite pow_add.
    rewrite <- (Rmult_1_r (h ^ m)) at 2. apply Rmult_le_compat_l; [apply pow_le; lra|].
    rewrite <- (pow1 (n - m)). apply pow_incr. lra.
  Qed.
  Lemma big_bounded M g : (forall t h i, a < t -> t + h < b -> 0 < h -> Rabs (g t h i) <= M) -> big 0 g.
  Proof.
    intros H. exists (Rmax 0 M), 1. split; [apply Rmax_l|]. split; [lra|].
    intros t h i Ht Hb Hp. simpl. rewrite Rmult_1_r. eapply Rle_trans; [apply H; auto; lra|apply Rmax_r].
  Qed.
  Lemma big_within n g : big n g -> exists C h0, 0 <= C /\ 0 < h0 /\ forall t h, a < t -> t + h < b -> 0 < h <= h0 -> @within I (g t h) (C * h ^ n).
  Proof. intros (C & h0 & HC & Hh & H). exists C, h0. repeat split; auto; [lra|]. intros t h Ht Hb Hp i. apply H; auto. Qed.

  Variable y : R -> A.
  (** a linear map, bounded uniformly in time *)
  Lemma big_J n (J : R -> A -> A) L c g : 0 <= c <= 1 ->
    (forall s e rho, a < s < b -> @within I e rho -> @within I (J s e) (L * rho)) ->
    big n g -> big n (fun t h => J (t + c * h) (g t h)).
  Proof.
    intros Hc HJ (C & h0 & HC & Hh & H). exists (Rmax 0 L * C), h0. split; [apply Rmult_le_pos; auto; apply Rmax_l|].
    split; [exact Hh|]. intros t h i Ht Hb Hp.
    assert (Hs : a < t + c * h < b).
    { assert (0 <= c * h) by (apply Rmult_le_pos; lra). assert (c * h <= 1 * h) by (apply Rmult_le_compat_r; lra). lra. }
    eapply Rle_trans; [apply (HJ (t + c * h) (g t h) (C * h ^ n) Hs)|].
    - intros j. apply H; auto.
    - rewrite Rmult_assoc. apply Rmult_le_compat_r; [|apply Rmax_r]. apply Rmult_le_pos; [exact HC|apply pow_le; lra].
  Qed.
  Lemma big_J2 n (J : R -> A -> A) L c c' g : 0 <= c <= 1 -> 0 <= c' <= 1 ->
    (forall s s' e rho, a < s < b -> a < s' < b -> @within I e rho -> forall i, Rabs (J s e i - J s' e i) <= L * Rabs (s - s') * rho) ->
    big n g -> big (S n) (fun t h i => J (t + c * h) (g t h) i - J (t + c' * h) (g t h) i).
  Proof.
    intros Hc Hc' HJ (C & h0 & HC & Hh & H). exists (Rmax 0 L * C), h0. split; [apply Rmult_le_pos; auto; apply Rmax_l|].
    split; [exact Hh|]. intros t h i Ht Hb Hp.
    assert (Hs : forall c, 0 <= c <= 1 -> a < t + c * h < b).
    { intros x Hx. assert (0 <= x * h) by (apply Rmult_le_pos; lra). assert (x * h <= 1 * h) by (apply Rmult_le_compat_r; lra). lra. }
    eapply Rle_trans; [apply (HJ (t + c * h) (t + c' * h) (g t h) (C * h ^ n) (Hs c Hc) (Hs c' Hc'))|].
    - intros j. apply H; auto.
    - replace (t + c * h - (t + c' * h)) with ((c - c') * h) by ring. rewrite Rabs_mult, (Rabs_right h) by lra.
      assert (D : Rabs (c - c') <= 1) by (apply Rabs_le; lra).
      assert (P : 0 <= C * h ^ n) by (apply Rmult_le_pos; [exact HC|apply pow_le; lra]).
      replace (Rmax 0 L * C * h ^ S n) with (Rmax 0 L * (1 * h) * (C * h ^ n)) by (simpl; ring).
      apply Rmult_le_compat_r; [exact P|].
      assert (Q : 0 <= Rabs (c - c') * h <= 1 * h).
      { split; [apply Rmult_le_pos; [apply Rabs_pos|lra]|apply Rmult_le_compat_r; lra]. }
      eapply Rle_trans; [apply Rmult_le_compat_r; [apply Q|apply (Rmax_r 0 L)]|].
      apply Rmult_le_compat_l; [apply Rmax_l|]. apply Q.
  Qed.
  (** a nonlinear map near y: second-order remainder *)
  Lemma big_quadratic n (Q : R -> A -> A) r L c g : 0 <= c <= 1 -> 0 < r -> (1 <= n)%nat ->
    (forall s e rho, a < s < b -> rho <= r -> @within I e rho -> @within I (Q s e) (L * (rho * rho))) ->
    big n g -> big (2 * n) (fun t h => Q (t + c * h) (g t h)).
  Proof.
    intros Hc Hr Hn HQ (C & h0 & HC & Hh & H).
    exists (Rmax 0 L * (C * C)), (Rmin h0 (r / (C + 1))).
    assert (P : 0 < r / (C + 1)) by (apply Rdiv_lt_0_compat; lra).
    split; [apply Rmult_le_pos; [apply Rmax_l|]; apply Rmult_le_pos; auto|].
    split. { pose proof (Rmin_l h0 (r / (C + 1))). pose proof (Rmin_glb_lt h0 (r / (C + 1)) 0). lra. }
    intros t h i Ht Hb Hp. pose proof (Rmin_l h0 (r / (C + 1))). pose proof (Rmin_r h0 (r / (C + 1))).
    assert (Hs : a < t + c * h < b).
    { assert (0 <= c * h) by (apply Rmult_le_pos; lra). assert (c * h <= 1 * h) by (apply Rmult_le_compat_r; lra). lra. }
    assert (hn : 0 <= h ^ n <= h).
    { split; [apply pow_le; lra|]. destruct n; [lia|]. simpl. rewrite <- (Rmult_1_r h) at 3. apply Rmult_le_compat_l; [lra|].
      rewrite <- (pow1 n). apply pow_incr. lra. }
    eapply Rle_trans; [apply (HQ (t + c * h) (g t h) (C * h ^ n) Hs)|].
    - eapply Rle_trans; [apply Rmult_le_compat_l; [exact HC|apply hn]|].
      eapply Rle_trans; [apply Rmult_le_compat_l; [exact HC|apply Rle_trans with (r / (C + 1)); [lra|apply Rle_refl]]|].
      unfold Rdiv. rewrite <- Rmult_assoc. apply Rmult_le_reg_r with (C + 1); [lra|].
      rewrite Rmult_assoc, Rinv_l by lra. rewrite Rmult_1_r. rewrite Rmult_comm. apply Rmult_le_compat_l; lra.
    - intros j. apply H; auto. lra.
    - replace (h ^ (2 * n)) with (h ^ n * h ^ n) by (rewrite <- pow_add; f_equal; lia).
      replace (Rmax 0 L * (C * C) * (h ^ n * h ^ n)) with (Rmax 0 L * (C * h ^ n * (C * h ^ n))) by ring.
      apply Rmult_le_compat_r; [|apply Rmax_r].
      apply Rmult_le_pos; apply Rmult_le_pos; auto; apply hn.
  Qed.
  (** a map that is Lipschitz continuous near y *)
  Lemma big_lipschitz n (Q : R -> A -> A) r L c g : 0 <= c <= 1 -> 0 < r -> (1 <= n)%nat ->
    (forall s e rho, a < s < b -> 0 <= rho <= r -> @within I e rho -> @within I (Q s e) (L * rho)) ->
    big n g -> big n (fun t h => Q (t + c * h) (g t h)).
  Proof.
    intros Hc Hr Hn HQ (C & h0 & HC & Hh & H).
    exists (Rmax 0 L * C), (Rmin h0 (r / (C + 1))).
    assert (P : 0 < r / (C + 1)) by (apply Rdiv_lt_0_compat; lra).
    split; [apply Rmult_le_pos; [apply Rmax_l|]; auto|].
    split. { pose proof (Rmin_l h0 (r / (C + 1))). pose proof (Rmin_glb_lt h0 (r / (C + 1)) 0). lra. }
    intros t h i Ht Hb Hp. pose proof (Rmin_l h0 (r / (C + 1))). pose proof (Rmin_r h0 (r / (C + 1))).
    assert (Hs : a < t + c * h < b).
    { assert (0 <= c * h) by (apply Rmult_le_pos; lra). assert (c * h <= 1 * h) by (apply Rmult_le_compat_r; lra). lra. }
    assert (hn : 0 <= h ^ n <= h).
    { split; [apply pow_le; lra|]. destruct n; [lia|]. simpl. rewrite <- (Rmult_1_r h) at 3. apply Rmult_le_compat_l; [lra|].
      rewrite <- (pow1 n). apply pow_incr. lra. }
    assert (P1 : 0 <= C * h ^ n) by (apply Rmult_le_pos; [exact HC|apply hn]).
    eapply Rle_trans; [apply (HQ (t + c * h) (g t h) (C * h ^ n) Hs)|].
    - split; [exact P1|].
      eapply Rle_trans; [apply Rmult_le_compat_l; [exact HC|apply hn]|].
      eapply Rle_trans; [apply Rmult_le_compat_l; [exact HC|apply Rle_trans with (r / (C + 1)); [lra|apply Rle_refl]]|].
      unfold Rdiv. rewrite <- Rmult_assoc. apply Rmult_le_reg_r with (C + 1); [lra|].
      rewrite Rmult_assoc, Rinv_l by lra. rewrite Rmult_1_r. rewrite Rmult_comm. apply Rmult_le_compat_l; lra.
    - intros j. apply H; auto. lra.
    - rewrite Rmult_assoc. apply Rmult_le_compat_r; [exact P1|apply Rmax_r].
  Qed.

  (** Taylor expansions of the derivatives of a smooth curve *)
  Lemma big_taylor n k (d : nat -> R -> A) M c : 0 <= c <= 1 -> (1 <= k + n)%nat ->
    (forall j s i, (j < k + n)%nat -> a < s < b -> derivable_pt_lim (fun r => d j r i) s (d (S j) s i)) ->
    (forall j s i, (1 <= j <= k + n)%nat -> a < s < b -> Rabs (d j s i) <= M) ->
    big n (fun t h i => d k (t + c * h) i - tay n (fun j s => d (k + j)%nat s i) t (c * h)).
  Proof.
    intros Hc Hk HD HM. exists (Rmax 0 M), 1. split; [apply Rmax_l|]. split; [lra|].
    intros t h i Ht Hb Hp.
    assert (P : 0 <= c * h <= h).
    { split; [apply Rmult_le_pos; lra|]. rewrite <- (Rmult_1_l h) at 2. apply Rmult_le_compat_r; lra. }
    pose proof (taylor_bound n (fun j s => d (k + j)%nat s i) t (c * h) (Rmax 0 M)) as T.
    cbv beta in T. rewrite Nat.add_0_r in T. eapply Rle_trans; [apply T|].
    - lra.
    - apply Rmax_l.
    - intros j s Hj Hs. replace (k + S j)%nat with (S (k + j)) by lia. apply HD; [lia|lra].
    - intros s Hs. eapply Rle_trans; [apply HM; [lia|lra]|apply Rmax_r].
    - apply Rmult_le_compat_l; [apply Rmax_l|]. apply pow_incr. lra.
  Qed.
End Calculus.
