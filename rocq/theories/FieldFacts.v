(** Integers, factorials and binomials as scalars of a field of characteristic 0. *)
From Coq Require Import List Arith ZArith Lia Field Ring.
From Verif Require Import Scalars.
Import ListNotations.

Section FF.
  Variable K : Fld.
  Add Field KFF : (f_th K).
  Open Scope fld_scope.

  Lemma fnat_add m n : @fnat K (m + n) = fnat m + fnat n.
  Proof. induction m; simpl; [ring|]. rewrite IHm. ring. Qed.
  Lemma fnat_mul m n : @fnat K (m * n) = fnat m * fnat n.
  Proof. induction m; simpl; [ring|]. rewrite fnat_add, IHm. ring. Qed.
  Lemma fnat_sub m n : (n <= m)%nat -> @fnat K (m - n) = fnat m - fnat n.
  Proof.
    intros H. replace m with ((m - n) + n)%nat at 2 by lia. rewrite fnat_add. ring.
  Qed.
  Lemma fnat_inj m n : @fnat K m = fnat n -> m = n.
  Proof.
    intros H. destruct (Nat.lt_trichotomy m n) as [Hl|[Hl|Hl]]; auto; exfalso.
    - apply (fnat_neq0 K (n - m)); [lia|]. rewrite fnat_sub by lia. rewrite H. ring.
    - apply (fnat_neq0 K (m - n)); [lia|]. rewrite fnat_sub by lia. rewrite H. ring.
  Qed.

  Definition fz (z : Z) : K :=
    match z with
    | Z0 => 0
    | Zpos p => fnat (Pos.to_nat p)
    | Zneg p => - fnat (Pos.to_nat p)
    end.

  Lemma fz_nat n : fz (Z.of_nat n) = fnat n.
  Proof. destruct n; [reflexivity|]. simpl Z.of_nat. unfold fz. rewrite SuccNat2Pos.id_succ. reflexivity. Qed.
  Lemma fz_opp z : fz (- z) = - fz z.
  Proof. destruct z; simpl; ring. Qed.
  Lemma fz_sub_nat m n : fz (Z.of_nat m - Z.of_nat n) = fnat m - fnat n.
  Proof.
    destruct (le_lt_dec n m) as [H|H].
    - rewrite <- Nat2Z.inj_sub by auto. rewrite fz_nat, fnat_sub by auto. reflexivity.
    - replace (Z.of_nat m - Z.of_nat n)%Z with (- Z.of_nat (n - m))%Z by lia.
      rewrite fz_opp, fz_nat, fnat_sub by lia. ring.
  Qed.
  Lemma Z_two_nats z : exists m n, z = (Z.of_nat m - Z.of_nat n)%Z.
  Proof. exists (Z.to_nat z), (Z.to_nat (- z)). lia. Qed.
  Lemma fz_add a b : fz (a + b) = fz a + fz b.
  Proof.
    destruct (Z_two_nats a) as (m & n & ->), (Z_two_nats b) as (p & q & ->).
    replace (Z.of_nat m - Z.of_nat n + (Z.of_nat p - Z.of_nat q))%Z
      with (Z.of_nat (m + p) - Z.of_nat (n + q))%Z by lia.
    rewrite !fz_sub_nat, !fnat_add. ring.
  Qed.
  Lemma fz_sub a b : fz (a - b) = fz a - fz b.
  Proof. unfold Z.sub. rewrite fz_add, fz_opp. ring. Qed.
  Lemma fz_mul a b : fz (a * b) = fz a * fz b.
  Proof.
    destruct (Z_two_nats a) as (m & n & ->), (Z_two_nats b) as (p & q & ->).
    replace ((Z.of_nat m - Z.of_nat n) * (Z.of_nat p - Z.of_nat q))%Z
      with (Z.of_nat (m * p + n * q) - Z.of_nat (m * q + n * p))%Z by (rewrite !Nat2Z.inj_add, !Nat2Z.inj_mul; ring).
    rewrite !fz_sub_nat, !fnat_add, !fnat_mul. ring.
  Qed.
  Lemma fz_inj a b : fz a = fz b -> a = b.
  Proof.
    intros H. assert (E : fz (a - b) = 0) by (rewrite fz_sub, H; ring).
    destruct (a - b)%Z eqn:D; [lia| |]; simpl in E.
    - exfalso. apply (fnat_neq0 K (Pos.to_nat p)); [lia|auto].
    - exfalso. apply (fnat_neq0 K (Pos.to_nat p)); [lia|].
      transitivity (- - @fnat K (Pos.to_nat p)); [ring|rewrite E; ring].
  Qed.
  Lemma fz_1 : fz 1 = 1.
  Proof. simpl. ring. Qed.

  Lemma fmul_neq0 (a b : K) : a <> 0 -> b <> 0 -> a * b <> 0.
  Proof.
    intros Ha Hb H. apply Hb. replace b with ((a * b) / a) by (field; auto).
    rewrite H. field. auto.
  Qed.
  Lemma f1_neq0 : (1 : K) <> 0.
  Proof. intros H. apply (fnat_neq0 K 1); [lia|]. simpl. rewrite H. ring. Qed.
  Lemma fpow_neq0 (a : K) n : a <> 0 -> fpow a n <> 0.
  Proof. intros H. induction n; simpl; [apply f1_neq0|apply fmul_neq0; auto]. Qed.
  Lemma fpow_add (a : K) m n : fpow a (m + n) = fpow a m * fpow a n.
  Proof. induction m; simpl; [ring|]. rewrite IHm. ring. Qed.
  Lemma fpow_mul_base (a b : K) n : fpow (a * b) n = fpow a n * fpow b n.
  Proof. induction n; simpl; [ring|]. rewrite IHn. ring. Qed.

  Definition ffac (n : nat) : K := fnat (fact n).
  Lemma ffac_neq0 n : ffac n <> 0.
  Proof. apply fnat_neq0. apply fact_neq_0. Qed.
  Lemma ffac_S n : ffac (S n) = fnat (S n) * ffac n.
  Proof. unfold ffac. rewrite <- fnat_mul. reflexivity. Qed.

  (** binomial coefficients *)
  Fixpoint binom (n k : nat) : nat :=
    match n, k with
    | _, O => 1
    | O, S _ => 0
    | S n', S k' => binom n' k' + binom n' k
    end.
  Lemma binom_gt n : forall k, (n < k)%nat -> binom n k = 0%nat.
  Proof.
    induction n as [|n IH]; intros [|k] H; simpl; auto; try lia.
    rewrite !IH by lia. reflexivity.
  Qed.
  Lemma binom_diag n : binom n n = 1%nat.
  Proof. induction n; simpl; auto. rewrite IHn, binom_gt by lia. reflexivity. Qed.
  Lemma binom_0 n : binom n 0 = 1%nat.
  Proof. destruct n; reflexivity. Qed.
  Lemma binom_fact n : forall k, (k <= n)%nat -> (binom n k * (fact k * fact (n - k)) = fact n)%nat.
  Proof.
    induction n as [|n IH]; intros k Hk.
    - assert (k = 0)%nat by lia. subst. reflexivity.
    - destruct k as [|k]; [simpl; lia|].
      cbn [binom]. destruct (Nat.eq_dec k n) as [->|Hn].
      + rewrite binom_diag, binom_gt by lia. rewrite Nat.sub_diag. simpl fact. lia.
      + rewrite Nat.mul_add_distr_r.
        replace (S n - S k)%nat with (n - k)%nat by lia.
        assert (E1 := IH k ltac:(lia)). assert (E2 := IH (S k) ltac:(lia)).
        replace (n - k)%nat with (S (n - S k)) at 2 by lia.
        assert (A1 : (fact (S k) = (S k) * fact k)%nat) by reflexivity.
        assert (A2 : (fact (S (n - S k)) = (S (n - S k)) * fact (n - S k))%nat) by reflexivity.
        assert (A3 : (fact (S n) = (S n) * fact n)%nat) by reflexivity.
        rewrite A3.
        transitivity (S k * (binom n k * (fact k * fact (n - k))) +
                      S (n - S k) * (binom n (S k) * (fact (S k) * fact (n - S k))))%nat.
        { rewrite A1 at 1. rewrite A2. ring. }
        rewrite E1, E2. replace (S (n - S k)) with (n - k)%nat by lia.
        rewrite <- Nat.mul_add_distr_r. f_equal. lia.
  Qed.
  Lemma binom_sym n k : (k <= n)%nat -> binom n (n - k) = binom n k.
  Proof.
    intros H. pose proof (binom_fact n k H) as E1.
    pose proof (binom_fact n (n - k) ltac:(lia)) as E2.
    replace (n - (n - k))%nat with k in E2 by lia.
    assert (P : (0 < fact k * fact (n - k))%nat).
    { apply Nat.mul_pos_pos; apply lt_O_fact. }
    nia.
  Qed.

  (** (-1)^n *)
  Definition sgn (n : nat) : K := fpow (- (1)) n.
  Lemma sgn_S n : sgn (S n) = - sgn n.
  Proof. unfold sgn. simpl. ring. Qed.
  Lemma sgn_add m n : sgn (m + n) = sgn m * sgn n.
  Proof. apply fpow_add. Qed.
  Lemma sgn_sq n : sgn n * sgn n = 1.
  Proof. unfold sgn. rewrite <- fpow_mul_base. induction n; simpl; [auto|]. rewrite IHn. ring. Qed.
  Lemma sgn_neq0 n : sgn n <> 0.
  Proof. intros H. apply f1_neq0. rewrite <- (sgn_sq n), H. ring. Qed.

  (** finite sums *)
  Fixpoint fsum (n : nat) (g : nat -> K) : K :=
    match n with O => 0 | S m => fsum m g + g m end.
  Lemma fsum_ext n g h : (forall i, (i < n)%nat -> g i = h i) -> fsum n g = fsum n h.
  Proof. induction n; simpl; intros H; auto. rewrite IHn by auto. rewrite H by lia. auto. Qed.
  Lemma fsum_add n g h : fsum n (fun i => g i + h i) = fsum n g + fsum n h.
  Proof. induction n; simpl; [ring|]. rewrite IHn. ring. Qed.
  Lemma fsum_sub n g h : fsum n (fun i => g i - h i) = fsum n g - fsum n h.
  Proof. induction n; simpl; [ring|]. rewrite IHn. ring. Qed.
  Lemma fsum_scale n c g : fsum n (fun i => c * g i) = c * fsum n g.
  Proof. induction n; simpl; [ring|]. rewrite IHn. ring. Qed.
  Lemma fsum_zero n g : (forall i, (i < n)%nat -> g i = 0) -> fsum n g = 0.
  Proof. induction n; simpl; intros H; auto. rewrite IHn by auto. rewrite H by lia. ring. Qed.
  Lemma fsum_shift n g : fsum (S n) g = g O + fsum n (fun i => g (S i)).
  Proof. induction n; simpl in *; [ring|]. rewrite IHn. ring. Qed.
  Lemma fsum_rev n g : fsum n (fun i => g (n - 1 - i)%nat) = fsum n g.
  Proof.
    induction n as [|n IH]; [reflexivity|].
    rewrite fsum_shift. simpl fsum at 2. rewrite <- IH.
    replace (S n - 1 - 0)%nat with n by lia.
    replace (fsum n (fun i => g (S n - 1 - S i)%nat)) with (fsum n (fun i => g (n - 1 - i)%nat)).
    - ring.
    - apply fsum_ext. intros i Hi. f_equal. lia.
  Qed.
  Lemma fsum_swap m n (g : nat -> nat -> K) :
    fsum m (fun i => fsum n (fun j => g i j)) = fsum n (fun j => fsum m (fun i => g i j)).
  Proof.
    induction m as [|m IH]; simpl.
    - symmetry. apply fsum_zero. auto.
    - rewrite IH. rewrite fsum_add. reflexivity.
  Qed.
End FF.
Arguments fz {K} z.
Arguments ffac {K} n.
Arguments sgn {K} n.
Arguments fsum {K} n g.
