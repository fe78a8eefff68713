(** Symmetric dissipative operators: the steps of euler and rk2 do not increase the norm up to dt * M = 2, those of
    rk4 up to dt * M = 139/50. *)
From Coq Require Import List Arith Bool Reals String Lia Lra Psatz FunctionalExtensionality.
From Verif Require Import PyBase Scalars FieldFacts FDReal SchemesModel SchemesSpec SchemesProofs EnergySpec EnergyProofs LineConv AdvectConv WindNorm DiffuseGauge.
Import ListNotations.
Open Scope R_scope.

Section Symmetric.
  Context {I : Type}.
  Notation A := (arr RF I).
  Variables (ip : A -> A -> R) (f : A -> A) (M : R).
  Hypothesis IP : inner_product ip.
  Hypothesis LF : @linear RF I I f.
  Hypothesis SF : forall a b, ip a (f b) = ip (f a) b.
  Hypothesis DF : forall a, ip a (f a) <= 0.
  Hypothesis BF : forall a, - ip a (f a) <= M * ip a a.
  Lemma square_bound a : ip (f a) (f a) <= M * - ip a (f a).
  Proof.
    destruct LF as [L1 L2]. set (b := f a).
    assert (Q : forall s, 2 * s * ip b b <= - ip a b + s ^ 2 * (M * ip b b)).
    { intros s. pose proof (DF (@vadd RF I a (@vscale RF I s b))) as X. rewrite L1, L2 in X. fold b in X.
      rewrite (ip_add _ IP), (ip_scale _ IP), !(ip_add_r _ IP), !(ip_scale_r _ IP) in X. rewrite (SF a b) in X. fold b in X.
      pose proof (BF b) as Y. assert (Z : 0 <= s ^ 2) by apply pow2_ge_0. apply (Rmult_le_compat_l (s ^ 2)) in Y; auto. 
      replace (s * (ip b b + s * ip b (f b))) with (s * ip b b + s ^ 2 * ip b (f b)) in X by ring. lra. }
    pose proof (ip_pos _ IP b) as Pb. pose proof (DF a) as Pa. fold b in Pa.
    destruct (Rle_dec M 0) as [NM|PM].
    - assert (Z : ip b b = 0).
      { destruct (Req_dec (ip b b) 0) as [|N]; auto. exfalso. assert (P : 0 < ip b b) by lra.
        pose proof (Q ((- ip a b + 1) / ip b b)) as X. set (s := (- ip a b + 1) / ip b b) in *.
        assert (Es : s * ip b b = - ip a b + 1) by (unfold s; field; lra).
        assert (0 <= s ^ 2) by apply pow2_ge_0. assert (M * ip b b <= 0) by (rewrite <- (Rmult_0_l (ip b b)); apply Rmult_le_compat_r; lra).
        assert (s ^ 2 * (M * ip b b) <= 0) by (rewrite <- (Rmult_0_r (s ^ 2)); apply Rmult_le_compat_l; auto). lra. }
      rewrite Z. pose proof (BF a) as Y. fold b in Y. pose proof (ip_pos _ IP a) as P0.
      assert (M * ip a a <= 0) by (rewrite <- (Rmult_0_l (ip a a)); apply Rmult_le_compat_r; auto). assert (ip a b = 0) by lra. rewrite H0. lra.
    - assert (P : 0 < M) by lra. pose proof (Q (/ M)) as X. replace ((/ M) ^ 2 * (M * ip b b)) with (/ M * ip b b) in X by (field; lra).
      assert (Y : / M * ip b b <= - ip a b) by lra. apply (Rmult_le_compat_l M) in Y; [|lra]. rewrite <- Rmult_assoc, Rinv_r, Rmult_1_l in Y by lra. exact Y.
  Qed.
  Lemma trend_bound a : 0 <= M -> norm ip (f a) <= M * norm ip a.
  Proof.
    intros PM. unfold norm. rewrite <- (sqrt_square M) at 1 by auto. rewrite <- sqrt_mult by (try apply (ip_pos _ IP); nra). apply sqrt_le_1_alt.
    pose proof (square_bound a) as S. pose proof (BF a) as B. apply (Rmult_le_compat_l M) in B; auto. lra.
  Qed.

  (** ** moments *)
  Variable dt : R.
  Hypothesis Hdt : 0 <= dt.
  Definition down (a : A) : A := @vscale RF I (- dt)%R (f a).
  Lemma down_linear : @linear RF I I down.
  Proof.
    destruct LF as [L1 L2]. split; intros; unfold down.
    - rewrite L1. apply functional_extensionality. intros i. unfold vadd, vscale. cbn [fadd fmul RF F]. match goal with |- @eq _ ?a ?b => change (@eq R a b) end. ring.
    - rewrite L2. apply functional_extensionality. intros i. unfold vadd, vscale. cbn [fadd fmul RF F]. match goal with |- @eq _ ?a ?b => change (@eq R a b) end. ring.
  Qed.
  Lemma down_sym a b : ip a (down b) = ip (down a) b.
  Proof. unfold down. rewrite (ip_scale_r _ IP), (ip_scale _ IP), SF. reflexivity. Qed.
  Lemma down_pos a : 0 <= ip a (down a).
  Proof. unfold down. rewrite (ip_scale_r _ IP). pose proof (DF a). replace (- dt * ip a (f a)) with (dt * - ip a (f a)) by ring. apply Rmult_le_pos; lra. Qed.
  Lemma down_bound c a : dt * M <= c -> 0 <= c * ip a (down a) - ip (down a) (down a).
  Proof.
    intros Hc. pose proof (square_bound a) as S. pose proof (DF a) as P. unfold down. rewrite (ip_scale _ IP), !(ip_scale_r _ IP).
    assert (X : dt * dt * ip (f a) (f a) <= dt * dt * (M * - ip a (f a))) by (apply Rmult_le_compat_l; auto; apply Rmult_le_pos; auto).
    assert (Y : dt * M * (dt * - ip a (f a)) <= c * (dt * - ip a (f a))) by (apply Rmult_le_compat_r; auto; apply Rmult_le_pos; lra). lra.
  Qed.
  Definition moment (a : A) (k : nat) : R := ip a (Nat.iter k down a).
  Lemma iter_shift k a : Nat.iter k down (down a) = down (Nat.iter k down a).
  Proof. induction k as [|k IH]; [reflexivity|]. change (down (Nat.iter k down (down a)) = down (down (Nat.iter k down a))). rewrite IH. reflexivity. Qed.
  Lemma moment_ip i : forall j a, ip (Nat.iter i down a) (Nat.iter j down a) = moment a (i + j).
  Proof.
    induction i as [|i IH]; intros j a; [reflexivity|].
    change (Nat.iter (S i) down a) with (down (Nat.iter i down a)). rewrite <- down_sym.
    change (down (Nat.iter j down a)) with (Nat.iter (S j) down a). rewrite IH. f_equal. lia.
  Qed.
  (** q0 a + q1 B a + q2 B^2 a + q3 B^3 a *)
  Definition poly3 (q0 q1 q2 q3 : R) (a : A) : A :=
    @vadd RF I (@vadd RF I (@vscale RF I q0 (Nat.iter 0 down a)) (@vscale RF I q1 (Nat.iter 1 down a))) (@vadd RF I (@vscale RF I q2 (Nat.iter 2 down a)) (@vscale RF I q3 (Nat.iter 3 down a))).
  Definition quad (q0 q1 q2 q3 : R) (a : A) (k : nat) : R :=
    q0 * q0 * moment a k + 2 * q0 * q1 * moment a (1 + k) + (q1 * q1 + 2 * q0 * q2) * moment a (2 + k) + (2 * q0 * q3 + 2 * q1 * q2) * moment a (3 + k)
    + (q2 * q2 + 2 * q1 * q3) * moment a (4 + k) + 2 * q2 * q3 * moment a (5 + k) + q3 * q3 * moment a (6 + k).
  Lemma down_poly q0 q1 q2 q3 a : down (poly3 q0 q1 q2 q3 a) =
    @vadd RF I (@vadd RF I (@vscale RF I q0 (Nat.iter 1 down a)) (@vscale RF I q1 (Nat.iter 2 down a))) (@vadd RF I (@vscale RF I q2 (Nat.iter 3 down a)) (@vscale RF I q3 (Nat.iter 4 down a))).
  Proof. destruct down_linear as [L1 L2]. unfold poly3. rewrite !L1, !L2. reflexivity. Qed.
  Lemma poly_1 q0 q1 q2 q3 a : ip (poly3 q0 q1 q2 q3 a) (down (poly3 q0 q1 q2 q3 a)) = quad q0 q1 q2 q3 a 1.
  Proof.
    rewrite down_poly. unfold poly3. rewrite !(ip_add _ IP), !(ip_scale _ IP), !(ip_add_r _ IP), !(ip_scale_r _ IP). rewrite !moment_ip. cbn [Nat.add]. unfold quad. cbn [Nat.add]. ring.
  Qed.
  Lemma poly_2 q0 q1 q2 q3 a : ip (down (poly3 q0 q1 q2 q3 a)) (down (poly3 q0 q1 q2 q3 a)) = quad q0 q1 q2 q3 a 2.
  Proof.
    rewrite down_poly. rewrite !(ip_add _ IP), !(ip_scale _ IP), !(ip_add_r _ IP), !(ip_scale_r _ IP). rewrite !moment_ip. cbn [Nat.add]. unfold quad. cbn [Nat.add]. ring.
  Qed.
  Lemma rk4_value a : @exp_taylor RF I f dt 4 a = @vadd RF I (poly3 1 (-1) (1 / 2) (-1 / 6) a) (@vscale RF I (1 / 24)%R (Nat.iter 4 down a)).
  Proof.
    destruct LF as [L1 L2].
    assert (It : forall k, Nat.iter k down a = @vscale RF I ((- dt) ^ k)%R (Nat.iter k f a)).
    { induction k as [|k IH].
      - apply functional_extensionality. intros i. change (a i = ((- dt) ^ 0 * a i)%R). rewrite pow_O, Rmult_1_l. reflexivity.
      - change (Nat.iter (S k) down a) with (down (Nat.iter k down a)). rewrite IH. unfold down. rewrite L2. change (Nat.iter (S k) f a) with (f (Nat.iter k f a)).
        apply functional_extensionality. intros i. unfold vscale. cbn [fadd fmul RF F pow]. match goal with |- @eq _ ?a ?b => change (@eq R a b) end. ring. }
    unfold poly3. rewrite !It. cbn [exp_taylor]. rewrite !coefficient. change (Nat.iter 0 f a) with a.
    apply functional_extensionality. intros i. unfold vadd, vscale. set (b1 := Nat.iter 1 f a i). set (b2 := Nat.iter 2 f a i). set (b3 := Nat.iter 3 f a i). set (b4 := Nat.iter 4 f a i).
    cbn [fadd fmul RF F pow]. change (fact 1) with 1%nat. change (fact 2) with 2%nat. change (fact 3) with 6%nat. change (fact 4) with 24%nat.
    replace (INR 1) with 1 by reflexivity. replace (INR 2) with 2 by (cbn; ring). replace (INR 6) with 6 by (cbn; ring). replace (INR 24) with 24 by (cbn; ring).
    match goal with |- @eq _ ?a ?b => change (@eq R a b) end. field.
  Qed.
  Lemma rk4_energy a : dt * M <= 139 / 50 -> ip (@exp_taylor RF I f dt 4 a) (@exp_taylor RF I f dt 4 a) <= ip a a.
  Proof.
    intros Hc. set (c := 139 / 50) in *.
    assert (P1 : forall q0 q1 q2 q3, 0 <= quad q0 q1 q2 q3 a 1) by (intros; rewrite <- poly_1; apply down_pos).
    assert (P2 : forall q0 q1 q2 q3, 0 <= c * quad q0 q1 q2 q3 a 1 - quad q0 q1 q2 q3 a 2) by (intros; rewrite <- poly_1, <- poly_2; apply down_bound; auto).
    assert (E : ip (@exp_taylor RF I f dt 4 a) (@exp_taylor RF I f dt 4 a) =
      moment a 0 - 2 * moment a 1 + 2 * moment a 2 - (1 / 3 + 1) * moment a 3 + (1 / 12 + 1 / 3 + 1 / 4) * moment a 4 - (1 / 6 + 1 / 12) * moment a 5
      + (1 / 36 + 1 / 24) * moment a 6 - 1 / 72 * moment a 7 + 1 / 576 * moment a 8).
    { rewrite rk4_value. unfold poly3. rewrite !(ip_add _ IP), !(ip_scale _ IP), !(ip_add_r _ IP), !(ip_scale_r _ IP). rewrite !moment_ip. cbn [Nat.add]. field. }
    rewrite E. change (ip a a) with (moment a 0).
    set (be := 61 / 100).
    pose proof (P1 3 (-2) 1 0) as C1. pose proof (P1 (-3) 1 0 0) as C2. pose proof (P1 1 0 0 0) as C3.
    pose proof (P2 (- be * 3) (3 + 2 * be) (- 2 - be) 1) as C4. pose proof (P2 (be * 3) (- 3 - be) 1 0) as C5. pose proof (P2 (- be) 1 0 0) as C6.
    pose proof (P2 3 (-2) 1 0) as C7. pose proof (P2 (-3) 1 0 0) as C8. pose proof (P2 1 0 0 0) as C9.
    set (m0 := moment a 0) in *. unfold quad in *. cbn [Nat.add] in *. unfold be, c in *.
    set (m1 := moment a 1) in *. set (m2 := moment a 2) in *. set (m3 := moment a 3) in *. set (m4 := moment a 4) in *. set (m5 := moment a 5) in *. set (m6 := moment a 6) in *. set (m7 := moment a 7) in *. set (m8 := moment a 8) in *.
    clear - C1 C2 C3 C4 C5 C6 C7 C8 C9.
    lra.
  Qed.
  Lemma rk4_norm a : dt * M <= 139 / 50 -> norm ip (@exp_taylor RF I f dt 4 a) <= norm ip a.
  Proof. intros H. apply sqrt_le_1_alt, rk4_energy, H. Qed.
  Lemma explicit_norm a : dt * M <= 2 -> norm ip (explicit f dt a) <= norm ip a.
  Proof.
    intros H. apply sqrt_le_1_alt. unfold explicit. rewrite (ip_add _ IP), (ip_scale _ IP), !(ip_add_r _ IP), !(ip_scale_r _ IP).
    pose proof (down_bound 2 a H) as X. unfold down in X. rewrite (ip_scale _ IP), !(ip_scale_r _ IP) in X. rewrite <- (SF a a). rewrite <- (SF a (f a)) in X. rewrite <- (SF a (f a)). lra.
  Qed.
End Symmetric.
