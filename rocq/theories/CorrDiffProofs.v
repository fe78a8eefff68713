From Coq Require Import Reals Lra Lia Arith.
From Verif Require Import CorrModel CorrSpec CorrProofs CorrDiffModel.
Open Scope R_scope.

Section Main.
  Variable n : nat.
  Variable inv : matrix -> matrix.
  Variable det : matrix -> R.
  Hypothesis Hinv : inverting n inv.
  Hypothesis Hdet : forall a b, (forall i j, a i j = b i j) -> det a = det b.
  Hypothesis Hhom : forall c a, det (mscale c a) = c ^ n * det a.

  Lemma rpower_scaled a c : 0 < a -> Rpower (2 ^ n * a) c = Rpower 2 (INR n * c) * Rpower a c.
  Proof.
    intros Ha. rewrite <- (Rpower_pow n 2) by lra. rewrite <- Rpower_mult. symmetry. apply Rpower_mult_distr; [|exact Ha]. unfold Rpower. apply exp_pos.
  Qed.
  Lemma normalised nx ny : 0 < det nx -> 0 < det ny -> 0 < det (mscale (/ 2) (madd nx ny)) ->
    (Rpower (det (mscale 2 nx)) (/ 4) * Rpower (det (mscale 2 ny)) (/ 4)) / Rpower (det (mscale (/ 2) (madd (mscale 2 nx) (mscale 2 ny)))) (/ 2)
    = (Rpower (det nx) (/ 4) * Rpower (det ny) (/ 4)) / Rpower (det (mscale (/ 2) (madd nx ny))) (/ 2).
  Proof.
    intros Hx Hy Hz. rewrite (Hdet (mscale (/ 2) (madd (mscale 2 nx) (mscale 2 ny))) (mscale 2 (mscale (/ 2) (madd nx ny)))) by (intros i j; unfold mscale, madd; field).
    rewrite !Hhom in *. rewrite !rpower_scaled by assumption.
    assert (P : Rpower 2 (INR n * / 2) = Rpower 2 (INR n * / 4) * Rpower 2 (INR n * / 4)) by (rewrite <- Rpower_plus; f_equal; field).
    rewrite P. assert (Q : 0 < Rpower 2 (INR n * / 4)) by (unfold Rpower; apply exp_pos).
    assert (Z : 0 < Rpower ((/ 2) ^ n * det (madd nx ny)) (/ 2)) by (unfold Rpower; apply exp_pos). field. lra.
  Qed.
  Lemma quad_half nx ny g v : inverses n (madd nx ny) g ->
    quad n (inv (madd (mscale 2 nx) (mscale 2 ny))) v = / 2 * quad n (inv (madd nx ny)) v.
  Proof.
    intros H. assert (H2 : inverses n (madd (mscale 2 nx) (mscale 2 ny)) (mscale (/ 2) g)).
    { destruct (inverses_scale n 2 (madd nx ny) g ltac:(lra) H) as [A B]. split; intros i j Hi Hj; [rewrite <- (A i j Hi Hj)|rewrite <- (B i j Hi Hj)];
        apply rsum_ext; intros k _; unfold madd, mscale; ring. }
    rewrite <- quad_scale. apply quad_ext; [|reflexivity]. intros i j Hi Hj. unfold mscale at 3.
    rewrite (inverse_unique n _ _ _ H2 (Hinv _ _ H2) i j Hi Hj). unfold mscale. f_equal. symmetry. apply (inverse_unique n _ _ _ H (Hinv _ _ H) i j Hi Hj).
  Qed.
  Lemma same_correlation nu px py g : 0 < det (nu px) -> 0 < det (nu py) -> 0 < det (mscale (/ 2) (madd (nu px) (nu py))) ->
    inverses n (madd (nu px) (nu py)) g ->
    correlation_in_diffusion n inv det nu px py = correlation n inv det (fun y => mscale 2 (nu y)) px py.
  Proof.
    intros Hx Hy Hz Hg. unfold correlation_in_diffusion, correlation. rewrite normalised by assumption. f_equal. f_equal.
    rewrite (quad_half _ _ g _ Hg). ring.
  Qed.
  Lemma diffusion_expansion nu g x v : (forall y, nu y = nu x) -> 0 < det (nu x) -> inverses n (nu x) g ->
    expansion (fun t => correlation_in_diffusion n inv det nu x (along x v t)) 0 (- quad n (mscale (/ 2) g) v).
  Proof.
    intros Hc Hd Hg. eapply expansion_ext; [|apply (correlation_expansion n inv det Hinv Hdet (fun y => mscale 2 (nu y)) (mscale (/ 2) g) x v)].
    - intros t. symmetry. assert (Hg2 : inverses n (madd (nu x) (nu (along x v t))) (mscale (/ 2) g)).
      { rewrite (Hc (along x v t)). destruct (inverses_scale n 2 (nu x) g ltac:(lra) Hg) as [A B].
        split; intros i j Hi Hj; [rewrite <- (A i j Hi Hj)|rewrite <- (B i j Hi Hj)]; apply rsum_ext; intros k _; unfold madd, mscale; ring. }
      apply (same_correlation nu x (along x v t) (mscale (/ 2) g)); [exact Hd|rewrite Hc; exact Hd| |exact Hg2].
      rewrite (Hc (along x v t)). rewrite (Hdet _ (nu x)) by (intros i j; unfold mscale, madd; field). exact Hd.
    - intros y. rewrite Hc. reflexivity.
    - rewrite Hhom. apply Rmult_lt_0_compat; [apply pow_lt; lra|exact Hd].
    - apply inverses_scale; [lra|exact Hg].
  Qed.
End Main.

(** ** correlation functions: 1 on the diagonal, symmetric, in (0, 1] *)
Section Function.
  Variable n : nat.
  Variable inv : matrix -> matrix.
  Variable det : matrix -> R.
  Hypothesis Hinv : inverting n inv.
  Hypothesis Hdet : forall a b, (forall i j, a i j = b i j) -> det a = det b.

  Lemma quad_zero a v : (forall i, (i < n)%nat -> v i = 0) -> quad n a v = 0.
  Proof. intros H. unfold quad. apply rsum_zero. intros i Hi. apply rsum_zero. intros j Hj. rewrite (H i Hi). ring. Qed.
  Lemma quad_opp a v w : (forall i, (i < n)%nat -> v i = - w i) -> quad n a v = quad n a w.
  Proof. intros H. unfold quad. apply rsum_ext. intros i Hi. apply rsum_ext. intros j Hj. rewrite (H i Hi), (H j Hj). ring. Qed.
  Lemma correlation_diagonal s x : 0 < det (s x) -> correlation n inv det s x x = 1.
  Proof.
    intros Hd. unfold correlation. rewrite quad_zero by (intros i _; unfold vsub; ring). rewrite Ropp_0, exp_0.
    rewrite (Hdet (mscale (/ 2) (madd (s x) (s x))) (s x)) by (intros i j; unfold mscale, madd; field). rewrite <- Rpower_plus.
    replace (/ 4 + / 4) with (/ 2) by field. assert (0 < Rpower (det (s x)) (/ 2)) by (unfold Rpower; apply exp_pos). field. lra.
  Qed.
  Lemma correlation_symmetric s x y g : inverses n (madd (s x) (s y)) g -> correlation n inv det s x y = correlation n inv det s y x.
  Proof.
    intros Hg. unfold correlation. rewrite (Hdet (mscale (/ 2) (madd (s x) (s y))) (mscale (/ 2) (madd (s y) (s x)))) by (intros i j; unfold mscale, madd; ring).
    rewrite (Rmult_comm (Rpower (det (s x)) (/ 4))). f_equal. f_equal. f_equal.
    rewrite (quad_opp _ (vsub x y) (vsub y x)) by (intros i _; unfold vsub; ring).
    assert (Hg' : inverses n (madd (s y) (s x)) g).
    { destruct Hg as [A B]. split; intros i j Hi Hj; [rewrite <- (A i j Hi Hj)|rewrite <- (B i j Hi Hj)]; apply rsum_ext; intros k _; unfold madd; ring. }
    apply quad_ext; [|reflexivity]. intros i j Hi Hj. rewrite (inverse_unique n _ _ _ Hg (Hinv _ _ Hg) i j Hi Hj). symmetry. apply (inverse_unique n _ _ _ Hg' (Hinv _ _ Hg') i j Hi Hj).
  Qed.
  (** the form of an inverse is that of the matrix *)
  Lemma quad_inverse m b v : right_inverse n m b -> quad n b v = quad n m (fun i => rsum n (fun j => b i j * v j)).
  Proof.
    intros H. set (w := fun i => rsum n (fun j => b i j * v j)).
    assert (Mw : forall i, (i < n)%nat -> rsum n (fun j => m i j * w j) = v i).
    { intros i Hi. unfold w. transitivity (rsum n (fun j => rsum n (fun k => m i j * b j k * v k))).
      { apply rsum_ext. intros j _. rewrite <- rsum_scal. apply rsum_ext. intros k _. ring. }
      rewrite rsum_swap. transitivity (rsum n (fun k => delta i k * v k)); [|apply rsum_delta, Hi].
      apply rsum_ext. intros k Hk. rewrite <- (H i k Hi Hk), <- rsum_scal_r. apply rsum_ext. intros j _. ring. }
    transitivity (rsum n (fun i => v i * w i)).
    - unfold quad. apply rsum_ext. intros i _. unfold w. rewrite <- rsum_scal. apply rsum_ext. intros j _. ring.
    - unfold quad. apply rsum_ext. intros i Hi. rewrite <- (Mw i Hi) at 1. rewrite <- rsum_scal_r. apply rsum_ext. intros j _. ring.
  Qed.
  Lemma correlation_bounds s x y g : 0 < det (s x) -> 0 < det (s y) -> 0 < det (mscale (/ 2) (madd (s x) (s y))) ->
    det (s x) * det (s y) <= det (mscale (/ 2) (madd (s x) (s y))) * det (mscale (/ 2) (madd (s x) (s y))) ->
    inverses n (madd (s x) (s y)) g -> (forall v, 0 <= quad n (s x) v) -> (forall v, 0 <= quad n (s y) v) ->
    0 < correlation n inv det s x y <= 1.
  Proof.
    intros Hx Hy Hm Hle Hg Px Py. unfold correlation. set (a := det (s x)) in *. set (b := det (s y)) in *. set (m := det (mscale (/ 2) (madd (s x) (s y)))) in *.
    assert (Ra : 0 < Rpower a (/ 4)) by (unfold Rpower; apply exp_pos). assert (Rb : 0 < Rpower b (/ 4)) by (unfold Rpower; apply exp_pos).
    assert (Rm : 0 < Rpower m (/ 2)) by (unfold Rpower; apply exp_pos).
    assert (N : 0 < Rpower a (/ 4) * Rpower b (/ 4) / Rpower m (/ 2)) by (apply Rdiv_lt_0_compat; [apply Rmult_lt_0_compat|]; assumption).
    assert (N1 : Rpower a (/ 4) * Rpower b (/ 4) / Rpower m (/ 2) <= 1).
    { apply (Rmult_le_reg_r (Rpower m (/ 2))); [exact Rm|]. unfold Rdiv. rewrite Rmult_assoc, Rinv_l, Rmult_1_r, Rmult_1_l by lra.
      rewrite Rpower_mult_distr by assumption. replace (Rpower m (/ 2)) with (Rpower (m * m) (/ 4)).
      - apply Rle_Rpower_l; [lra|]. split; [apply Rmult_lt_0_compat; assumption|exact Hle].
      - rewrite <- Rpower_mult_distr, <- Rpower_plus by assumption. f_equal. field. }
    assert (Q : 0 <= quad n (inv (madd (s x) (s y))) (vsub x y)).
    { rewrite (quad_inverse _ _ _ (Hinv _ _ Hg)). set (w := fun i => _).
      replace (quad n (madd (s x) (s y)) w) with (quad n (s x) w + quad n (s y) w); [specialize (Px w); specialize (Py w); lra|].
      unfold quad, madd. rewrite <- rsum_plus. apply rsum_ext. intros i _. rewrite <- rsum_plus. apply rsum_ext. intros j _. ring. }
    set (q := quad _ _ _) in *. assert (E1 : exp (- q) <= 1).
    { destruct Q as [Q|Q]; [|rewrite <- Q, Ropp_0, exp_0; lra]. left. rewrite <- exp_0. apply exp_increasing. lra. }
    pose proof (exp_pos (- q)) as E0. split; [apply Rmult_lt_0_compat; assumption|].
    replace 1 with (1 * 1) by ring. apply Rmult_le_compat; lra.
  Qed.
End Function.

(** ** sizes 1 and 2 *)
Definition det2 (m : matrix) : R := m 0%nat 0%nat * m 1%nat 1%nat - m 0%nat 1%nat * m 1%nat 0%nat.
Lemma mean1 a b : 0 < a -> 0 < b -> a * b <= (/ 2 * (a + b)) * (/ 2 * (a + b)).
Proof. intros Ha Hb. pose proof (Rle_0_sqr (a - b)). unfold Rsqr in *. lra. Qed.
(** the determinant of the mean of two symmetric positive matrices is at least the geometric mean *)
Lemma mean2 a11 a12 a22 b11 b12 b22 : 0 < a11 -> 0 < b11 -> 0 < a11 * a22 - a12 * a12 -> 0 < b11 * b22 - b12 * b12 ->
  let m := (/ 2 * (a11 + b11)) * (/ 2 * (a22 + b22)) - (/ 2 * (a12 + b12)) * (/ 2 * (a12 + b12)) in
  0 < m /\ (a11 * a22 - a12 * a12) * (b11 * b22 - b12 * b12) <= m * m.
Proof.
  intros A1 B1 A B m. set (al := a11 * a22 - a12 * a12) in *. set (be := b11 * b22 - b12 * b12) in *.
  set (c := a11 * b22 + a22 * b11 - 2 * a12 * b12).
  assert (Em : m = (al + be + c) / 4) by (unfold m, al, be, c; field).
  (* a11 b11 c = al b11^2 + be a11^2 + (a12 b11 - b12 a11)^2 *)
  assert (Ec : a11 * b11 * c = al * (b11 * b11) + be * (a11 * a11) + (a12 * b11 - b12 * a11) * (a12 * b11 - b12 * a11)) by (unfold c, al, be; ring).
  assert (P : 0 < a11 * b11) by (apply Rmult_lt_0_compat; assumption).
  pose proof (Rle_0_sqr (a12 * b11 - b12 * a11)) as S. unfold Rsqr in S.
  assert (C0 : 0 < c).
  { apply (Rmult_lt_reg_l (a11 * b11)); [exact P|]. rewrite Rmult_0_r, Ec. assert (0 < al * (b11 * b11)) by (repeat apply Rmult_lt_0_compat; assumption).
    assert (0 < be * (a11 * a11)) by (repeat apply Rmult_lt_0_compat; assumption). lra. }
  (* c^2 >= 4 al be *)
  assert (C2 : 4 * (al * be) <= c * c).
  { apply (Rmult_le_reg_l ((a11 * b11) * (a11 * b11))); [apply Rmult_lt_0_compat; exact P|].
    replace (a11 * b11 * (a11 * b11) * (c * c)) with ((a11 * b11 * c) * (a11 * b11 * c)) by ring. rewrite Ec.
    set (u := al * (b11 * b11)). set (v := be * (a11 * a11)). set (q := (a12 * b11 - b12 * a11) * (a12 * b11 - b12 * a11)) in *.
    replace (a11 * b11 * (a11 * b11) * (4 * (al * be))) with (4 * (u * v)) by (unfold u, v; ring).
    assert (0 < u) by (unfold u; repeat apply Rmult_lt_0_compat; assumption). assert (0 < v) by (unfold v; repeat apply Rmult_lt_0_compat; assumption).
    pose proof (Rle_0_sqr (u - v)) as T. unfold Rsqr in T. assert (0 <= q * (2 * (u + v) + q)) by (apply Rmult_le_pos; lra). lra. }
  split; [rewrite Em; lra|]. rewrite Em. pose proof (Rle_0_sqr (al - be)) as T. unfold Rsqr in T.
  assert (T2 : 4 * (al * be) <= (al + be) * (al + be)) by lra.
  assert (T3 : 4 * (al * be) <= (al + be) * c).
  { (* both are at least 2 sqrt(al be) *)
    apply Rsqr_incr_0; [|apply Rmult_le_pos; [lra|]; assert (0 < al * be) by (apply Rmult_lt_0_compat; assumption); lra|apply Rmult_le_pos; lra].
    unfold Rsqr. replace (4 * (al * be) * (4 * (al * be))) with ((4 * (al * be)) * (4 * (al * be))) by ring.
    replace ((al + be) * c * ((al + be) * c)) with ((al + be) * (al + be) * (c * c)) by ring.
    apply Rmult_le_compat; try lra; assert (0 < al * be) by (apply Rmult_lt_0_compat; assumption); lra. }
  lra.
Qed.
Lemma psd2 m v : 0 < m 0%nat 0%nat -> 0 < det2 m -> m 0%nat 1%nat = m 1%nat 0%nat -> 0 <= quad 2 m v.
Proof.
  unfold det2, quad. cbn. intros Ha Hd Hs. rewrite Hs in *. set (a := m 0%nat 0%nat) in *. set (b := m 1%nat 0%nat) in *. set (c := m 1%nat 1%nat) in *.
  set (x := v 0%nat). set (y := v 1%nat). apply (Rmult_le_reg_l a); [exact Ha|]. rewrite Rmult_0_r.
  pose proof (Rle_0_sqr (a * x + b * y)) as S. pose proof (Rle_0_sqr y) as Y. unfold Rsqr in *.
  assert (0 <= (a * c - b * b) * (y * y)) by (apply Rmult_le_pos; lra). nra.
Qed.
