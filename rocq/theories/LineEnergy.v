(** Norms of arrays on a periodic line, and how much an explicit step of the linear part of Burgers' and of the
    Kuramoto-Sivashinsky equations dissipates. *)
From Coq Require Import List Arith ZArith Bool Reals Lia Lra Permutation FunctionalExtensionality Psatz.
From Verif Require Import PyBase LineSpec LineProofs LineConv LineMoreProofs LineMoreForecast.
Import ListNotations.
Open Scope R_scope.

Section Norm.
  Variable n : nat.
  Definition ip (f g : nat -> R) : R := sm n (fun j => f j * g j).
  Definition nr (f : nat -> R) : R := sqrt (ip f f).
  Lemma ip_ext f g f' g' : (forall j, (j < n)%nat -> f j = f' j) -> (forall j, (j < n)%nat -> g j = g' j) -> ip f g = ip f' g'.
  Proof. intros A B. apply sm_ext. intros j Hj. rewrite A, B by auto. reflexivity. Qed.
  Lemma nr_ext f g : (forall j, (j < n)%nat -> f j = g j) -> nr f = nr g.
  Proof. intros A. unfold nr. f_equal. apply ip_ext; auto. Qed.
  Lemma ip_pos f : 0 <= ip f f.
  Proof.
    unfold ip. replace 0 with (sm n (fun _ => 0 * 0)); [apply sm_le; intros; nra|]. rewrite sm_scale. ring.
  Qed.
  Lemma nr_pos f : 0 <= nr f. Proof. apply sqrt_pos. Qed.
  Lemma nr_sq f : nr f ^ 2 = ip f f.
  Proof. unfold nr. rewrite <- Rsqr_pow2. apply Rsqr_sqrt, ip_pos. Qed.
  Lemma ip_sym f g : ip f g = ip g f. Proof. apply sm_ext. intros; ring. Qed.
  Lemma ip_add_l f g k : ip (fun j => f j + g j) k = ip f k + ip g k.
  Proof. unfold ip. rewrite <- sm_add. apply sm_ext. intros; ring. Qed.
  Lemma ip_scale_l c f k : ip (fun j => c * f j) k = c * ip f k.
  Proof. unfold ip. rewrite <- sm_scale. apply sm_ext. intros; ring. Qed.
  Lemma ip_add_r f g k : ip k (fun j => f j + g j) = ip k f + ip k g.
  Proof. rewrite ip_sym, ip_add_l, (ip_sym f), (ip_sym g). reflexivity. Qed.
  Lemma ip_scale_r c f k : ip k (fun j => c * f j) = c * ip k f.
  Proof. rewrite ip_sym, ip_scale_l, (ip_sym f). reflexivity. Qed.
  Lemma cauchy f g : Rabs (ip f g) <= nr f * nr g.
  Proof.
    assert (D : forall x y, 0 <= x ^ 2 * ip f f + 2 * (x * y) * ip f g + y ^ 2 * ip g g).
    { intros x y. pose proof (ip_pos (fun j => x * f j + y * g j)) as P.
      rewrite ip_add_l, !ip_add_r, !ip_scale_l, !ip_scale_r, (ip_sym g f) in P. lra. }
    assert (S : ip f g ^ 2 <= ip f f * ip g g).
    { pose proof (ip_pos f) as P1. pose proof (ip_pos g) as P2.
      destruct (Rle_lt_or_eq_dec 0 (ip g g) P2) as [Lt|Eq].
      - pose proof (D (ip g g) (- ip f g)) as Q. 
        assert (0 <= ip g g * (ip g g * ip f f - ip f g ^ 2)) by nra.
        apply Rmult_le_reg_l with (ip g g); nra.
      - destruct (Rle_lt_or_eq_dec 0 (ip f f) P1) as [Lt|Eq'].
        + pose proof (D (- ip f g) (ip f f)) as Q.
          assert (0 <= ip f f * (ip f f * ip g g - ip f g ^ 2)) by nra.
          apply Rmult_le_reg_l with (ip f f); nra.
        + pose proof (D 1 1) as Q1. pose proof (D 1 (-1)) as Q2. rewrite <- Eq, <- Eq' in Q1, Q2.
          replace (ip f g) with 0 by lra. rewrite <- Eq, <- Eq'. lra. }
    rewrite <- !nr_sq in S. pose proof (nr_pos f). pose proof (nr_pos g).
    apply Rabs_le. set (x := ip f g) in *. assert (0 <= nr f * nr g) by nra. replace (nr f ^ 2 * nr g ^ 2) with ((nr f * nr g) ^ 2) in S by ring.
    set (y := nr f * nr g) in *. split; nra.
  Qed.
  Lemma nr_le f B : 0 <= B -> ip f f <= B ^ 2 -> nr f <= B.
  Proof. intros P H. rewrite <- nr_sq in H. pose proof (nr_pos f). nra. Qed.
  Lemma nr_add f g : nr (fun j => f j + g j) <= nr f + nr g.
  Proof.
    pose proof (nr_pos f). pose proof (nr_pos g). apply nr_le; [lra|].
    rewrite ip_add_l, !ip_add_r, (ip_sym g f). pose proof (cauchy f g) as C. apply Rabs_inv in C.
    rewrite <- !nr_sq. nra.
  Qed.
  Lemma nr_scale c f : nr (fun j => c * f j) = Rabs c * nr f.
  Proof.
    unfold nr. rewrite ip_scale_l, ip_scale_r, <- Rmult_assoc, sqrt_mult_alt by nra. f_equal. apply sqrt_Rsqr_abs.
  Qed.
  Lemma nr_sub f g : nr (fun j => f j - g j) <= nr f + nr g.
  Proof.
    rewrite (nr_ext _ (fun j => f j + (-1) * g j)) by (intros; ring). eapply Rle_trans; [apply nr_add|].
    rewrite nr_scale. replace (Rabs (-1)) with 1 by (rewrite Rabs_left; lra). lra.
  Qed.
  Lemma nr_mono f g : (forall j, (j < n)%nat -> Rabs (f j) <= Rabs (g j)) -> nr f <= nr g.
  Proof.
    intros H. unfold nr. apply sqrt_le_1_alt. apply sm_le. intros j Hj.
    specialize (H j Hj). pose proof (Rabs_pos (f j)).
    assert (E : forall y, y * y = Rabs y * Rabs y) by (intros y; rewrite <- Rabs_mult; rewrite Rabs_pos_eq; nra).
    rewrite (E (f j)), (E (g j)). nra.
  Qed.
  Lemma nr_mult M f g : 0 <= M -> (forall j, (j < n)%nat -> Rabs (f j) <= M) -> nr (fun j => f j * g j) <= M * nr g.
  Proof.
    intros P H. rewrite <- (Rabs_pos_eq M P), <- nr_scale. apply nr_mono. intros j Hj. rewrite !Rabs_mult, (Rabs_pos_eq M P).
    apply Rmult_le_compat_r; [apply Rabs_pos|auto].
  Qed.
  Lemma sm_one : sm n (fun _ => 1 * 1) = INR n.
  Proof.
    unfold sm. rewrite <- (seq_length n 0) at 2. generalize (seq 0 n). induction l as [|j l IH]; [reflexivity|].
    cbn [map fold_right List.length]. rewrite S_INR, IH. ring.
  Qed.
  Lemma nr_const M f : 0 <= M -> (forall j, (j < n)%nat -> Rabs (f j) <= M) -> nr f <= M * sqrt (INR n).
  Proof.
    intros P H. rewrite (nr_ext f (fun j => f j * 1)) by (intros; ring).
    eapply Rle_trans; [apply (nr_mult M f (fun _ => 1) P H)|]. apply Rmult_le_compat_l; auto.
    unfold nr. right. f_equal. apply sm_one.
  Qed.
  Lemma nr_shift s f : nr (fun j => f (shift n s j)) = nr f.
  Proof. unfold nr. f_equal. unfold ip. apply (sm_shift n s (fun j => f j * f j)). Qed.
  Lemma nr_entry f j : (j < n)%nat -> Rabs (f j) <= nr f.
  Proof.
    intros Hj. apply Rsqr_incr_0_var; [|apply nr_pos]. rewrite <- Rsqr_abs, !Rsqr_pow2, nr_sq. unfold ip, sm.
    assert (I : In j (seq 0 n)) by (apply in_seq; lia). 
    assert (P : forall l, 0 <= fold_right Rplus 0 (map (fun j => f j * f j) l)) by (induction l as [|i l IH]; cbn; [lra|nra]).
    induction (seq 0 n) as [|i l IH]; [destruct I|]. cbn. destruct I as [<-|I].
    - pose proof (P l). nra.
    - specialize (IH I). cbn in IH. nra.
  Qed.
End Norm.

Section Differences.
  Variables (n : nat) (h : R).
  Hypothesis Hh : 0 < h.
  Notation nr := (nr n). Notation ip := (ip n).
  Definition dp (U : nat -> R) (j : nat) : R := (U (shift n 1 j) - U j) / h.
  Lemma inv_h : 0 < / h. Proof. apply Rinv_0_lt_compat, Hh. Qed.
  Lemma dp_ext U V j : (forall i, (i < n)%nat -> U i = V i) -> (j < n)%nat -> dp U j = dp V j.
  Proof. intros E Hj. unfold dp. rewrite !E by (auto using shift_lt). reflexivity. Qed.
  Lemma dp_bound U : nr (dp U) <= 2 / h * nr U.
  Proof.
    rewrite (nr_ext n (dp U) (fun j => / h * (U (shift n 1 j) - U j))) by (intros; unfold dp, Rdiv; ring).
    rewrite nr_scale, Rabs_pos_eq by (left; apply inv_h).
    pose proof (nr_sub n (fun j => U (shift n 1 j)) U) as T. rewrite nr_shift in T. pose proof inv_h.
    unfold Rdiv. nra.
  Qed.
  Lemma d2_dp U j : (j < n)%nat -> d2 n h U j = (dp U j - dp U (shift n (-1) j)) / h.
  Proof.
    intros Hj. unfold d2, dp. rewrite shift_shift by auto. change (1 + -1)%Z with 0%Z. rewrite shift_0 by auto. field. lra.
  Qed.
  Lemma d2_bound U : nr (d2 n h U) <= 2 / h * nr (dp U).
  Proof.
    rewrite (nr_ext n (d2 n h U) (fun j => / h * (dp U j - dp U (shift n (-1) j)))) by (intros; rewrite d2_dp by auto; unfold Rdiv; ring).
    rewrite nr_scale, Rabs_pos_eq by (left; apply inv_h).
    pose proof (nr_sub n (dp U) (fun j => dp U (shift n (-1) j))) as T. rewrite nr_shift in T. pose proof inv_h.
    unfold Rdiv. nra.
  Qed.
  Lemma d1_bound U : nr (d1 n h U) <= nr (dp U).
  Proof.
    rewrite (nr_ext n (d1 n h U) (fun j => / 2 * (dp U j + dp U (shift n (-1) j)))).
    2:{ intros j Hj. unfold d1, dp. rewrite shift_shift by auto. change (1 + -1)%Z with 0%Z. rewrite shift_0 by auto. field. lra. }
    rewrite nr_scale, Rabs_pos_eq by lra.
    pose proof (nr_add n (dp U) (fun j => dp U (shift n (-1) j))) as T. rewrite nr_shift in T. lra.
  Qed.
  Lemma ip_shift s f g : ip (fun j => f (shift n s j)) (fun j => g (shift n s j)) = ip f g.
  Proof. apply (sm_shift n s (fun j => f j * g j)). Qed.
  Lemma parts U V : ip U (d2 n h V) = - ip (dp U) (dp V).
  Proof.
    rewrite (ip_ext n U (d2 n h V) U (fun j => / h * (dp V j + (-1) * dp V (shift n (-1) j)))); auto.
    2:{ intros j Hj. rewrite d2_dp by auto. unfold Rdiv. ring. }
    rewrite ip_scale_r, ip_add_r, ip_scale_r.
    rewrite <- (ip_shift 1 U (fun j => dp V (shift n (-1) j))).
    rewrite (ip_ext n _ (fun j => dp V (shift n (-1) (shift n 1 j))) (fun j => U (shift n 1 j)) (dp V)); auto.
    2:{ intros j Hj. rewrite shift_shift by auto. change (-1 + 1)%Z with 0%Z. rewrite shift_0 by auto. reflexivity. }
    rewrite (ip_ext n (dp U) (dp V) (fun j => / h * (U (shift n 1 j) + (-1) * U j)) (dp V)); auto.
    2:{ intros j Hj. unfold dp, Rdiv. ring. }
    rewrite ip_scale_l, ip_add_l, ip_scale_l. ring.
  Qed.
  Lemma d2_sym U V : ip U (d2 n h V) = ip (d2 n h U) V.
  Proof. rewrite parts, (ip_sym n (d2 n h U)), parts, (ip_sym n (dp V)). reflexivity. Qed.
  Lemma d4_d2 U j : (j < n)%nat -> d4 n h U j = d2 n h (d2 n h U) j.
  Proof.
    intros Hj. unfold d4. unfold d2 at 1. unfold d2. rewrite !shift_shift by auto.
    change (1 + 1)%Z with 2%Z. change (-1 + -1)%Z with (-2)%Z. change (-1 + 1)%Z with 0%Z. change (1 + -1)%Z with 0%Z.
    rewrite shift_0 by auto. field. lra.
  Qed.
  Lemma slope_between U : nr (dp U) ^ 2 <= nr U * nr (d2 n h U).
  Proof.
    rewrite nr_sq. replace (ip (dp U) (dp U)) with (- ip U (d2 n h U)) by (rewrite parts; ring).
    pose proof (cauchy n U (d2 n h U)) as C. apply Rabs_inv in C. lra.
  Qed.

  Variables mu eta : R.
  Hypothesis He : 0 <= eta.
  (** the linear part of the trend *)
  Definition lin (U : nat -> R) (j : nat) : R := mu * d2 n h U j - eta * d4 n h U j.
  Definition stiff : R := 4 * Rabs mu / h ^ 2 + 16 * eta / h ^ 4.
  Lemma d2_ext' U V : (forall i, (i < n)%nat -> U i = V i) -> forall j, (j < n)%nat -> d2 n h U j = d2 n h V j.
  Proof. intros E j Hj. unfold d2. rewrite !E by (auto using shift_lt). reflexivity. Qed.
  Lemma lin_d2 U j : (j < n)%nat -> lin U j = mu * d2 n h U j + - eta * d2 n h (d2 n h U) j.
  Proof. intros Hj. unfold lin. rewrite d4_d2 by auto. ring. Qed.
  Lemma lin_ext U V j : (forall i, (i < n)%nat -> U i = V i) -> (j < n)%nat -> lin U j = lin V j.
  Proof. intros E Hj. unfold lin, d2, d4. rewrite !E by (auto using shift_lt). reflexivity. Qed.
  Lemma lin_comb (a b : R) U V j : lin (fun i => a * U i + b * V i) j = a * lin U j + b * lin V j.
  Proof. unfold lin, d2, d4, Rdiv. ring. Qed.
  Lemma lin_curve U : nr (lin U) <= (Rabs mu + 4 * eta / h ^ 2) * nr (d2 n h U).
  Proof.
    rewrite (nr_ext n (lin U) (fun j => mu * d2 n h U j + - eta * d2 n h (d2 n h U) j)) by (intros; apply lin_d2; auto).
    eapply Rle_trans; [apply (nr_add n (fun j => mu * d2 n h U j) (fun j => - eta * d2 n h (d2 n h U) j))|].
    rewrite !nr_scale, Rabs_Ropp, (Rabs_pos_eq eta He).
    pose proof (d2_bound (d2 n h U)) as B1. pose proof (dp_bound (d2 n h U)) as B2. pose proof inv_h as Ih.
    assert (nr (d2 n h (d2 n h U)) <= 4 / h ^ 2 * nr (d2 n h U)).
    { replace (4 / h ^ 2 * nr (d2 n h U)) with (2 / h * (2 / h * nr (d2 n h U))) by (field; lra).
      eapply Rle_trans; [exact B1|]. apply Rmult_le_compat_l; auto. unfold Rdiv. lra. }
    replace ((Rabs mu + 4 * eta / h ^ 2) * nr (d2 n h U)) with (Rabs mu * nr (d2 n h U) + eta * (4 / h ^ 2 * nr (d2 n h U))) by (field; lra).
    apply Rplus_le_compat_l. apply Rmult_le_compat_l; auto.
  Qed.
  Lemma lin_bound U : nr (lin U) <= stiff * nr U.
  Proof.
    eapply Rle_trans; [apply lin_curve|].
    pose proof (d2_bound U) as B1. pose proof (dp_bound U) as B2. pose proof inv_h as Ih.
    assert (nr (d2 n h U) <= 4 / h ^ 2 * nr U).
    { replace (4 / h ^ 2 * nr U) with (2 / h * (2 / h * nr U)) by (field; lra).
      eapply Rle_trans; [exact B1|]. apply Rmult_le_compat_l; auto. unfold Rdiv. lra. }
    unfold stiff. replace ((4 * Rabs mu / h ^ 2 + 16 * eta / h ^ 4) * nr U) with ((Rabs mu + 4 * eta / h ^ 2) * (4 / h ^ 2 * nr U)) by (field; lra).
    apply Rmult_le_compat_l; auto. pose proof (Rabs_pos mu).
    assert (0 <= / h ^ 2) by (left; apply Rinv_0_lt_compat; nra). unfold Rdiv. assert (0 <= eta * / h ^ 2) by (apply Rmult_le_pos; lra). nra.
  Qed.
  Lemma lin_ip U : ip U (lin U) = - mu * nr (dp U) ^ 2 - eta * nr (d2 n h U) ^ 2.
  Proof.
    rewrite (ip_ext n U (lin U) U (fun j => mu * d2 n h U j + - eta * d2 n h (d2 n h U) j)); auto.
    2:{ intros; apply lin_d2; auto. }
    rewrite ip_add_r, !ip_scale_r, (d2_sym U (d2 n h U)), parts, !nr_sq. ring.
  Qed.
  Lemma dp_d2 U j : (j < n)%nat -> dp (d2 n h U) j = d2 n h (dp U) j.
  Proof.
    intros Hj. unfold dp at 1. unfold d2, dp. rewrite !shift_shift by auto. change (1 + 1)%Z with 2%Z. change (-1 + 1)%Z with 0%Z.
    change (1 + -1)%Z with 0%Z. rewrite shift_0 by auto. field. lra.
  Qed.
  Lemma dp_lin U j : (j < n)%nat -> dp (lin U) j = lin (dp U) j.
  Proof.
    intros Hj. rewrite (lin_d2 (dp U)) by auto.
    rewrite (dp_ext (lin U) (fun j => mu * d2 n h U j + - eta * d2 n h (d2 n h U) j)) by (auto using lin_d2).
    rewrite <- (d2_ext' (dp (d2 n h U)) (d2 n h (dp U))) by (auto using dp_d2).
    rewrite <- !dp_d2 by auto. unfold dp, Rdiv. ring.
  Qed.

  (** one explicit step of the linear part *)
  Variable dt : R.
  Hypothesis (Hdt : 0 <= dt) (Stable : dt * stiff <= 1).
  Definition eul (U : nat -> R) (j : nat) : R := U j + dt * lin U j.
  Lemma z_bound U : nr (fun j => dt * lin U j) <= nr U.
  Proof.
    rewrite nr_scale, (Rabs_pos_eq dt Hdt). pose proof (lin_bound U). pose proof (nr_pos n U).
    apply Rle_trans with (dt * (stiff * nr U)); [apply Rmult_le_compat_l; auto|]. nra.
  Qed.
  Lemma z_slope U : nr (dp (fun j => dt * lin U j)) <= nr (dp U).
  Proof.
    eapply Rle_trans; [|apply (z_bound (dp U))]. right. apply nr_ext. intros j Hj. rewrite <- dp_lin by auto. unfold dp, Rdiv. ring.
  Qed.
  Lemma eul_energy U : nr (eul U) ^ 2 <= nr U ^ 2 + dt * ((Rabs mu - 2 * mu) * nr (dp U) ^ 2 - eta * nr (d2 n h U) ^ 2).
  Proof.
    assert (E : nr (eul U) ^ 2 = nr U ^ 2 + 2 * dt * ip U (lin U) + dt * (dt * nr (lin U) ^ 2)).
    { rewrite !nr_sq. unfold eul. rewrite ip_add_l, !ip_add_r, !ip_scale_l, !ip_scale_r, (ip_sym n (lin U) U). ring. }
    rewrite E, lin_ip. clear E.
    set (k := Rabs mu + 4 * eta / h ^ 2). set (q := nr (dp U)). set (p := nr (d2 n h U)).
    assert (Pk : 0 <= k).
    { unfold k. pose proof (Rabs_pos mu). assert (0 <= / h ^ 2) by (left; apply Rinv_0_lt_compat; nra). unfold Rdiv. 
      assert (0 <= eta * / h ^ 2) by (apply Rmult_le_pos; lra). nra. }
    assert (Pq : 0 <= q) by apply nr_pos. assert (Pp : 0 <= p) by apply nr_pos.
    assert (L1 : nr (lin U) ^ 2 <= (k * p) ^ 2).
    { pose proof (lin_curve U) as L. fold k p in L. pose proof (nr_pos n (lin U)). assert (0 <= k * p) by nra. nra. }
    assert (S1 : dt * k <= h ^ 2 / 4).
    { apply Rmult_le_reg_r with (4 / h ^ 2); [apply Rdiv_lt_0_compat; nra|].
      replace (h ^ 2 / 4 * (4 / h ^ 2)) with 1 by (field; lra). replace (dt * k * (4 / h ^ 2)) with (dt * stiff); auto.
      unfold k, stiff. field. lra. }
    assert (B1 : h ^ 2 / 4 * p ^ 2 <= q ^ 2).
    { pose proof (d2_bound U) as B. fold p q in B. assert (h * p / 2 <= q). 
      { apply Rmult_le_reg_l with (2 / h); [apply Rdiv_lt_0_compat; lra|]. replace (2 / h * (h * p / 2)) with p by (field; lra). exact B. }
      assert (0 <= h * p / 2) by nra. replace (h ^ 2 / 4 * p ^ 2) with ((h * p / 2) ^ 2) by field. nra. }
    assert (L2 : dt * nr (lin U) ^ 2 <= Rabs mu * q ^ 2 + eta * p ^ 2).
    { apply Rle_trans with (dt * (k * p) ^ 2); [apply Rmult_le_compat_l; auto|].
      replace (dt * (k * p) ^ 2) with ((dt * k) * (k * p ^ 2)) by ring.
      apply Rle_trans with (h ^ 2 / 4 * (k * p ^ 2)); [apply Rmult_le_compat_r; nra|].
      replace (h ^ 2 / 4 * (k * p ^ 2)) with (Rabs mu * (h ^ 2 / 4 * p ^ 2) + eta * p ^ 2) by (unfold k; field; lra).
      apply Rplus_le_compat_r. apply Rmult_le_compat_l; auto. apply Rabs_pos. }
    assert (dt * (dt * nr (lin U) ^ 2) <= dt * (Rabs mu * q ^ 2 + eta * p ^ 2)) by (apply Rmult_le_compat_l; auto).
    lra.
  Qed.
End Differences.

(** Burgers' equation: [eta] is 0 and [mu] positive; Kuramoto-Sivashinsky: [eta] is positive *)
Definition parabolic (mu eta : R) : Prop := 0 < eta \/ (eta = 0 /\ 0 < mu).
Lemma dissipation mu eta : parabolic mu eta -> exists nu C0, 0 < nu /\ 0 <= C0 /\
  forall n h dt U, 0 < h -> 0 <= dt -> dt * stiff h mu eta <= 1 ->
    nr n (eul n h mu eta dt U) ^ 2 <= (1 + C0 * dt) * nr n U ^ 2 - nu * dt * nr n (dp n h U) ^ 2.
Proof.
  intros [He|[-> Hm]].
  - set (m := 3 * Rabs mu + 1). exists 1, (m ^ 2 / (4 * eta)). split; [lra|]. split.
    { apply Rmult_le_pos; [apply pow2_ge_0|]. left. apply Rinv_0_lt_compat. lra. }
    intros n h dt U Hh Hdt St. pose proof (eul_energy n h Hh mu eta ltac:(lra) dt Hdt St U) as E.
    pose proof (slope_between n h Hh U) as S. set (q := nr n (dp n h U)) in *. set (p := nr n (d2 n h U)) in *. set (a := nr n U) in *.
    assert (X : m * q ^ 2 <= eta * p ^ 2 + m ^ 2 / (4 * eta) * a ^ 2).
    { apply Rle_trans with (m * (a * p)). { apply Rmult_le_compat_l; auto. unfold m. pose proof (Rabs_pos mu). lra. }
      assert (0 <= (2 * eta * p - m * a) ^ 2 / (4 * eta)) by (apply Rmult_le_pos; [apply pow2_ge_0|left; apply Rinv_0_lt_compat; lra]).
      replace ((2 * eta * p - m * a) ^ 2 / (4 * eta)) with (eta * p ^ 2 + m ^ 2 / (4 * eta) * a ^ 2 - m * (a * p)) in H by (field; lra). lra. }
    assert (Y : (Rabs mu - 2 * mu) * q ^ 2 <= (m - 1) * q ^ 2).
    { apply Rmult_le_compat_r; [apply pow2_ge_0|]. unfold m. pose proof (Rle_abs (- mu)). rewrite Rabs_Ropp in H. lra. }
    assert (Z : dt * ((Rabs mu - 2 * mu) * q ^ 2 - eta * p ^ 2) <= dt * (m ^ 2 / (4 * eta) * a ^ 2 - q ^ 2)).
    { apply Rmult_le_compat_l; auto. lra. }
    lra.
  - exists mu, 0. split; [auto|]. split; [lra|]. intros n h dt U Hh Hdt St.
    pose proof (eul_energy n h Hh mu 0 ltac:(lra) dt Hdt St U) as E. rewrite (Rabs_pos_eq mu) in E by lra. lra.
Qed.
