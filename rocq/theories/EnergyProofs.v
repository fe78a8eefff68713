(** The energy of linear conservative dynamics under the time schemes. *)
From Coq Require Import List Arith ZArith Bool Reals String Lia Lra Psatz FunctionalExtensionality.
From Verif Require Import PyBase PyBaseFacts Scalars FieldFacts FDReal ForecastModel ForecastSpec SchemesModel SchemesSpec SchemesProofs
  LineConv EnergySpec.
Import ListNotations.
Open Scope R_scope.

Section Energy.
  Context {I : Type}.
  Notation A := (arr RF I).
  Variables (ip : A -> A -> R) (f : A -> A).
  Hypothesis (IP : inner_product ip) (LF : @linear RF I I f) (CF : conservative ip f).
  Notation E x := (ip x x).

  Lemma ip_add_r a b c : ip a (@vadd RF I b c) = ip a b + ip a c.
  Proof. rewrite (ip_sym ip IP), (ip_add ip IP), !(ip_sym ip IP a). reflexivity. Qed.
  Lemma ip_scale_r a k b : ip a (@vscale RF I k b) = k * ip a b.
  Proof. rewrite (ip_sym ip IP), (ip_scale ip IP), (ip_sym ip IP a). reflexivity. Qed.
  Lemma skew x y : ip x (f y) = - ip (f x) y.
  Proof.
    pose proof (CF (@vadd RF I x y)) as H. rewrite (proj1 LF) in H.
    rewrite ip_add_r, !(ip_add ip IP), !CF in H. rewrite (ip_sym ip IP (f x)). lra.
  Qed.
  Lemma skew0 x : ip (f x) x = 0.
  Proof. rewrite (ip_sym ip IP). apply CF. Qed.

  (** the growth of the energy in one step *)
  Definition gain (s : onestep) (dt : R) (x : A) : R :=
    match s with
    | SEuler => dt ^ 2 * E (f x)
    | SRk2 => dt ^ 4 / 4 * E (f (f x))
    | SRk4 => - (dt ^ 6 / 72 * E (f (f (f x)))) + dt ^ 8 / 576 * E (f (f (f (f x))))
    end.
  Lemma exp_gain s dt x : let y := @exp_taylor RF I f dt (onestep_order s) x in ip y y = ip x x + gain s dt x.
  Proof.
    cbv zeta.
    set (x1 := f x). set (x2 := f x1). set (x3 := f x2). set (x4 := f x3).
    assert (S10 : ip x1 x = 0) by (apply skew0). assert (S21 : ip x2 x1 = 0) by (apply skew0).
    assert (S32 : ip x3 x2 = 0) by (apply skew0). assert (S43 : ip x4 x3 = 0) by (apply skew0).
    assert (S01 : ip x x1 = 0) by (apply CF). assert (S12 : ip x1 x2 = 0) by (apply CF).
    assert (S23 : ip x2 x3 = 0) by (apply CF). assert (S34 : ip x3 x4 = 0) by (apply CF).
    assert (S02 : ip x x2 = - ip x1 x1) by (apply skew). assert (S13 : ip x1 x3 = - ip x2 x2) by (apply skew).
    assert (S24 : ip x2 x4 = - ip x3 x3) by (apply skew).
    assert (S03 : ip x x3 = 0) by (transitivity (- ip x1 x2); [apply skew|rewrite S12; ring]).
    assert (S14 : ip x1 x4 = 0) by (transitivity (- ip x2 x3); [apply skew|rewrite S23; ring]).
    assert (S04 : ip x x4 = ip x2 x2) by (transitivity (- ip x1 x3); [apply skew|rewrite S13; ring]).
    assert (S20 : ip x2 x = - ip x1 x1) by (rewrite (ip_sym ip IP); exact S02).
    assert (S31 : ip x3 x1 = - ip x2 x2) by (rewrite (ip_sym ip IP); exact S13).
    assert (S42 : ip x4 x2 = - ip x3 x3) by (rewrite (ip_sym ip IP); exact S24).
    assert (S30 : ip x3 x = 0) by (rewrite (ip_sym ip IP); exact S03).
    assert (S41 : ip x4 x1 = 0) by (rewrite (ip_sym ip IP); exact S14).
    assert (S40 : ip x4 x = ip x2 x2) by (rewrite (ip_sym ip IP); exact S04).
    destruct s; cbn [onestep_order exp_taylor gain];
      change (Nat.iter 1 f x) with x1; try change (Nat.iter 2 f x) with x2;
      try change (Nat.iter 3 f x) with x3; try change (Nat.iter 4 f x) with x4;
      repeat (rewrite ip_add_r || rewrite ip_scale_r || rewrite (ip_add ip IP) || rewrite (ip_scale ip IP));
      rewrite ?S01, ?S10, ?S12, ?S21, ?S23, ?S32, ?S34, ?S43, ?S02, ?S20, ?S13, ?S31, ?S24, ?S42, ?S03, ?S30, ?S14, ?S41, ?S04, ?S40;
      fold x1; try fold x2; try fold x3; try fold x4; cbn; field.
  Qed.
  Lemma step_gain s (t dt : R) x y : @onestep_fun RF I s (@pure RF I (fun _ => f)) t x dt = Ok y -> ip y y = ip x x + gain s dt x.
  Proof. intros H. pose proof (step_linear_exp RF s f t x dt LF) as H2. change (@onestep_fun RF I s (@pure RF I (fun _ => f)) t x dt = Ok (@exp_taylor RF I f dt (onestep_order s) x)) in H2. rewrite H in H2. injection H2 as ->. apply exp_gain. Qed.
  Lemma step_ok s (t dt : R) x : exists y, @onestep_fun RF I s (@pure RF I (fun _ => f)) t x dt = Ok y /\ ip y y = ip x x + gain s dt x.
  Proof. eexists. split; [apply (step_linear_exp RF s f t x dt LF)|apply exp_gain]. Qed.

  Lemma gain_rk4 m dt x : at_most ip f m -> dt ^ 2 * m ^ 2 <= 8 -> gain SRk4 dt x <= 0.
  Proof.
    intros M H. cbn [gain]. pose proof (M (f (f (f x)))) as H4. pose proof (ip_pos ip IP (f (f (f x)))) as P3.
    assert (P : 0 <= dt ^ 6) by nra.
    assert (dt ^ 8 * ip (f (f (f (f x)))) (f (f (f (f x)))) <= dt ^ 6 * 8 * ip (f (f (f x))) (f (f (f x)))); [|lra].
    apply Rle_trans with (dt ^ 8 * (m ^ 2 * ip (f (f (f x))) (f (f (f x))))).
    - apply Rmult_le_compat_l; auto. replace (dt ^ 8) with (dt ^ 6 * dt ^ 2) by ring. apply Rmult_le_pos; nra.
    - replace (dt ^ 8 * (m ^ 2 * ip (f (f (f x))) (f (f (f x))))) with (dt ^ 6 * ((dt ^ 2 * m ^ 2) * ip (f (f (f x))) (f (f (f x))))) by ring.
      rewrite (Rmult_assoc (dt ^ 6) 8). apply Rmult_le_compat_l; auto. apply Rmult_le_compat_r; auto.
  Qed.
  Lemma gain_euler dt x : 0 <= gain SEuler dt x.
  Proof. cbn. apply Rmult_le_pos; [nra|apply (ip_pos ip IP)]. Qed.
  Lemma gain_rk2 dt x : 0 <= gain SRk2 dt x.
  Proof. cbn [gain]. apply Rmult_le_pos; [nra|apply (ip_pos ip IP)]. Qed.

  (** ** along forecasts *)
  Lemma forecast_rk4 m tau w x0 sv : at_most ip f m -> 0 <= m -> tau * m <= sqrt 8 -> by_steps tau w -> w <> [] -> sv <> SOther ->
    exists traj, forecast Req_EM_T Rminus (@rk4 RF I) (@pure RF I (fun _ => f)) w x0 sv = Ok traj /\
      forall t, In t w -> is_saved w sv t -> exists x, dget Req_EM_T t traj = Some x /\ ip x x <= ip x0 x0.
  Proof.
    intros M Pm Ht Hw Hn Hs. destruct w as [|t0 w]; [congruence|].
    apply (forecast_keeps (@rk4 RF I) (@pure RF I (fun _ => f)) (fun _ x => ip x x <= ip x0 x0) (t0 :: w) x0 sv t0); auto; [lra|].
    intros k t t' x H H' Hi. destruct (step_ok SRk4 t (t' - t) x) as (y & Ey & G). exists y. split; [exact Ey|].
    assert (gain SRk4 (t' - t) x <= 0); [|lra]. apply (gain_rk4 m); auto.
    destruct (Hw k t t' H H') as [W1 W2]. replace ((t' - t) ^ 2 * m ^ 2) with (((t' - t) * m) ^ 2) by ring.
    replace 8 with (sqrt 8 ^ 2) by (rewrite <- Rsqr_pow2, Rsqr_sqrt; lra).
    apply pow_incr. split; [apply Rmult_le_pos; lra|]. apply Rle_trans with (tau * m); auto. apply Rmult_le_compat_r; lra.
  Qed.
  (** modes *)
  Definition factor (s : onestep) (z : R) : R :=
    match s with SEuler => 1 + z | SRk2 => 1 + z ^ 2 / 4 | SRk4 => 1 - z ^ 3 / 72 + z ^ 4 / 576 end.
  Lemma mode_f m x : mode f m x -> mode f m (f x).
  Proof. unfold mode. intros H. rewrite H. apply (proj2 LF). Qed.
  Lemma mode_comb m c x y : mode f m x -> mode f m y -> mode f m (@vadd RF I x (@vscale RF I c y)).
  Proof.
    unfold mode. intros Hx Hy. rewrite !(proj1 LF), !(proj2 LF), Hx, Hy.
    apply functional_extensionality. intros i. unfold vadd, vscale. cbn. ring.
  Qed.
  Lemma mode_iter m k x : mode f m x -> mode f m (Nat.iter k f x).
  Proof. intros H. induction k; auto. apply (mode_f m). exact IHk. Qed.
  Lemma mode_exp m p dt x : mode f m x -> mode f m (@exp_taylor RF I f dt p x).
  Proof. intros H. induction p as [|p IH]; [exact H|]. apply mode_comb; auto. apply mode_iter. exact H. Qed.
  Lemma mode_energy m x : mode f m x -> ip (f x) (f x) = m ^ 2 * ip x x.
  Proof. intros H. pose proof (skew x (f x)) as S. rewrite H, ip_scale_r in S. lra. Qed.
  Lemma mode_gain s m dt x : mode f m x -> ip x x + gain s dt x = factor s ((dt * m) ^ 2) * ip x x.
  Proof.
    intros H. pose proof (mode_energy m x H) as E1. pose proof (mode_energy m _ (mode_f m _ H)) as E2.
    pose proof (mode_energy m _ (mode_f m _ (mode_f m _ H))) as E3.
    pose proof (mode_energy m _ (mode_f m _ (mode_f m _ (mode_f m _ H)))) as E4.
    destruct s; cbn [gain factor]; rewrite ?E4, ?E3, ?E2, ?E1; field.
  Qed.
  Lemma times_nth t0 dt N k t : nth_error (times t0 dt N) k = Some t -> t = t0 + INR k * dt.
  Proof.
    intros Hk. unfold times in Hk. rewrite nth_error_map in Hk.
    destruct (nth_error (seq 0 (S N)) k) as [i|] eqn:E; [|discriminate]. injection Hk as <-.
    assert (k < S N)%nat by (rewrite <- (seq_length (S N) 0); apply nth_error_Some; congruence).
    rewrite (nth_error_nth' _ O) in E by (rewrite seq_length; auto). rewrite seq_nth in E by auto. injection E as <-. reflexivity.
  Qed.
  Lemma times_step t0 dt N k t t' : nth_error (times t0 dt N) k = Some t -> nth_error (times t0 dt N) (S k) = Some t' -> t' - t = dt.
  Proof. intros H H'. rewrite (times_nth _ _ _ _ _ H), (times_nth _ _ _ _ _ H'), S_INR. ring. Qed.
  Lemma times_last t0 dt N : In (t0 + INR N * dt) (times t0 dt N).
  Proof. unfold times. apply in_map_iff. exists N. split; [reflexivity|]. apply in_seq. lia. Qed.
  Lemma forecast_mode s m t0 dt N x0 : mode f m x0 -> dt <> 0 ->
    exists traj x, forecast Req_EM_T Rminus (@onestep_fun RF I s) (@pure RF I (fun _ => f)) (times t0 dt N) x0 SNone = Ok traj /\
      dget Req_EM_T (t0 + INR N * dt) traj = Some x /\ ip x x = factor s ((dt * m) ^ 2) ^ N * ip x0 x0.
  Proof.
    intros Hm Hd.
    destruct (forecast_keeps (@onestep_fun RF I s) (@pure RF I (fun _ => f))
      (fun t x => exists k, t = t0 + INR k * dt /\ mode f m x /\ ip x x = factor s ((dt * m) ^ 2) ^ k * ip x0 x0)
      (times t0 dt N) x0 SNone t0) as (traj & Et & H).
    - discriminate.
    - unfold times. cbn. f_equal. ring.
    - exists O. split; [cbn; ring|]. split; auto. cbn. ring.
    - intros i t t' x Hi Hi' (k & Ek & Hx & Hk). exists (@exp_taylor RF I f (t' - t)%R (onestep_order s) x).
      split; [exact (step_linear_exp RF s f t x (t' - t)%R LF)|]. exists (S k).
      pose proof (times_step _ _ _ _ _ _ Hi Hi') as Ed. rewrite Ed. split; [rewrite S_INR; lra|]. split; [apply mode_exp; auto|].
      rewrite (exp_gain s dt x). rewrite (mode_gain s m) by auto. rewrite Hk. cbn [pow]. ring.
    - destruct (H _ (times_last t0 dt N) (times_last t0 dt N)) as (x & G & k & Ek & _ & Hk).
      exists traj, x. split; [exact Et|]. split; [exact G|].
      assert (k = N) as ->. { apply INR_eq. apply (Rmult_eq_reg_r dt); lra. } exact Hk.
  Qed.
  Lemma blow_up q e B : 1 < q -> 0 < e -> exists N0, forall N, (N0 <= N)%nat -> B <= q ^ N * e.
  Proof.
    intros Hq He. destruct (Pow_x_infinity q ltac:(rewrite Rabs_pos_eq; lra) (B / e)) as (N0 & HN). exists N0. intros N H.
    specialize (HN N H). rewrite Rabs_pos_eq in HN by (apply pow_le; lra).
    apply Rge_le in HN. apply (Rmult_le_compat_r e) in HN; [|lra]. unfold Rdiv in HN. rewrite Rmult_assoc, Rinv_l in HN by lra. lra.
  Qed.
  Lemma factor_large s z : match s with SRk4 => 8 < z | _ => 0 < z end -> 1 < factor s z.
  Proof. destruct s; cbn [factor]; intros H; [lra| |]; [nra|]. assert (0 < z ^ 3) by (apply pow_lt; lra). nra. Qed.

  (** ** leapfrog *)
  Definition pair_energy (dt : R) (a b : A) : R := ip a a + ip b b - 2 * dt * ip b (f a).
  Lemma leapfrog_step (t dt : R) a b : exists c, @leapfrog RF I (@pure RF I (fun _ => f)) t [a; b] dt = Ok [b; c] /\
    pair_energy dt b c = pair_energy dt a b.
  Proof.
    eexists. split; [reflexivity|]. unfold pair_energy. cbn [pure bind].
    repeat (rewrite ip_add_r || rewrite ip_scale_r || rewrite (ip_add ip IP) || rewrite (ip_scale ip IP)).
    rewrite (skew b a), (ip_sym ip IP (f b) a). cbn. ring.
  Qed.
  Lemma cauchy m a b : at_most ip f m -> 0 <= m -> Rabs (ip b (f a)) <= m * (ip a a + ip b b) / 2.
  Proof.
    intros M Pm. pose proof (ip_pos ip IP a) as Pa. pose proof (ip_pos ip IP b) as Pb. pose proof (M a) as Ma.
    destruct (Req_dec m 0) as [->|Nm].
    - (* the image has no energy *)
      assert (Z : ip (f a) (f a) = 0) by (pose proof (ip_pos ip IP (f a)); nra).
      assert (ip b (f a) = 0).
      { destruct (Req_dec (ip b (f a)) 0) as [|N]; auto. exfalso.
        set (c := ip b (f a)) in *. set (k := (ip b b + 1) / (2 * c)).
        pose proof (ip_pos ip IP (@vadd RF I b (@vscale RF I (- k)%R (f a)))) as Q.
        repeat (rewrite ip_add_r in Q || rewrite ip_scale_r in Q || rewrite (ip_add ip IP) in Q || rewrite (ip_scale ip IP) in Q).
        rewrite Z, (ip_sym ip IP (f a) b) in Q. fold c in Q. assert (k * c = (ip b b + 1) / 2) by (unfold k; field; auto). nra. }
      rewrite H, Rabs_R0. nra.
    - assert (H : forall e, e = 1 \/ e = -1 -> 2 * e * (m * ip b (f a)) <= m ^ 2 * (ip a a + ip b b)).
      { intros e He. pose proof (ip_pos ip IP (@vadd RF I (@vscale RF I m b) (@vscale RF I (- e)%R (f a)))) as Q.
        repeat (rewrite ip_add_r in Q || rewrite ip_scale_r in Q || rewrite (ip_add ip IP) in Q || rewrite (ip_scale ip IP) in Q).
        rewrite (ip_sym ip IP (f a) b) in Q. assert (e * e = 1) by (destruct He; subst; ring). nra. }
      pose proof (H 1 (or_introl eq_refl)) as H1. pose proof (H (-1) (or_intror eq_refl)) as H2.
      apply Rabs_le. split; apply (Rmult_le_reg_l m); nra.
  Qed.
  Lemma forecast_leapfrog m t0 dt N a b sv : at_most ip f m -> 0 <= m -> 0 <= dt -> sv <> SOther ->
    exists traj, forecast Req_EM_T Rminus (@leapfrog RF I) (@pure RF I (fun _ => f)) (times t0 dt N) [a; b] sv = Ok traj /\
      forall t, In t (times t0 dt N) -> is_saved (times t0 dt N) sv t -> exists c d, dget Req_EM_T t traj = Some [c; d] /\
        pair_energy dt c d = pair_energy dt a b /\
        (1 - dt * m) * (ip c c + ip d d) <= (1 + dt * m) * (ip a a + ip b b).
  Proof.
    intros M Pm Pd Hs.
    destruct (forecast_keeps (@leapfrog RF I) (@pure RF I (fun _ => f))
      (fun _ x => exists c d, x = [c; d] /\ pair_energy dt c d = pair_energy dt a b) (times t0 dt N) [a; b] sv t0) as (traj & Et & H); auto.
    - unfold times. cbn. f_equal. ring.
    - exists a, b. auto.
    - intros k t t' x H H' (c & d & -> & Q). rewrite (times_step _ _ _ _ _ _ H H'). destruct (leapfrog_step t dt c d) as (z & Ez & Qz).
      exists [d; z]. split; [exact Ez|]. exists d, z. split; auto. congruence.
    - exists traj. split; [exact Et|]. intros t Ht Hv. destruct (H t Ht Hv) as (x & G & c & d & -> & Q).
      exists c, d. split; [exact G|]. split; [exact Q|]. unfold pair_energy in Q.
      pose proof (cauchy m c d M Pm) as C1. pose proof (cauchy m a b M Pm) as C2. apply Rabs_inv in C1, C2. nra.
  Qed.
End Energy.
