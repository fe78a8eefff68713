(** One step of the schemes with a generated model of the line against a smooth solution. *)
From Coq Require Import List Arith ZArith Bool Reals Lia Lra Permutation FunctionalExtensionality Psatz.
From Verif Require Import PyBase Scalars FieldFacts FDReal SchemesModel SchemesSpec LineSpec LineProofs LineConv LineMoreProofs LineMoreForecast LineEnergy LineStage.
Import ListNotations.
Open Scope R_scope.

Lemma half_is (dt : R) : @fmul RF dt (@half RF) = dt / 2.
Proof. unfold half, fnat. cbn. match goal with |- ?a = ?b => change (@eq R a b) end. field. Qed.
Lemma half_is' (dt : R) : @fmul RF (@half RF) dt = dt / 2.
Proof. unfold half, fnat. cbn. match goal with |- ?a = ?b => change (@eq R a b) end. field. Qed.
Lemma sixth_is (dt : R) : @fdiv RF dt (@fnat RF 6) = dt / 6.
Proof. unfold fnat. cbn. match goal with |- ?a = ?b => change (@eq R a b) end. field. Qed.
Lemma two_is : @fnat RF 2 = 2.
Proof. unfold fnat. cbn. match goal with |- ?a = ?b => change (@eq R a b) end. ring. Qed.
Lemma at0_step (a b : list nat -> R) (c : R) j : at0 (@vadd RF (list nat) a (@vscale RF (list nat) c b)) j = at0 a j + c * at0 b j.
Proof. reflexivity. Qed.

Section Step.
  Variables (n : nat) (h mu eta dt nu C0 M T : R).
  Hypothesis (Hh : 0 < h) (He : 0 <= eta) (Hdt : 0 <= dt) (Stable : dt * stiff h mu eta <= 1).
  Hypothesis (Hnu : 0 < nu) (HC0 : 0 <= C0).
  Hypothesis Dis : forall U, nr n (eul n h mu eta dt U) ^ 2 <= (1 + C0 * dt) * nr n U ^ 2 - nu * dt * nr n (dp n h U) ^ 2.
  Hypothesis (HM : 0 <= M) (HT : 0 <= T).
  Hypothesis (Small1 : dt <= 1) (Small2 : dt * (M + 1) <= 1) (Small3 : dt * (M + 1) * (2 / h) <= 1) (Small4 : 12 * Kg M ^ 2 * dt <= nu).
  Notation nr := (nr n). Notation full := (full n h mu eta). Notation T' := (T * sqrt (INR n)).
  Notation zz := (zz n h mu eta dt).

  Variables (v : R -> nat -> R) (t : R).
  Hypothesis Tame : forall s, t <= s <= t + dt -> tame n h M (v s).
  Hypothesis Def : forall r s j, t <= r <= t + dt -> t <= s <= t + dt -> (j < n)%nat ->
    Rabs (v r j - v t j - (r - t) * full (v s) j) <= dt * T.

  Definition off (s : R) (U : nat -> R) (j : nat) : R := U j - v s j.
  Lemma stage_error c (r s : R) (U W X : nat -> R) : 0 <= c <= 1 -> r = t + c * dt -> t <= s <= t + dt ->
    (forall j, (j < n)%nat -> X j = U j + c * dt * full W j) -> nr (off s W) <= 1 ->
    exists g, nr g <= dt * size n h M T (off s W) /\
      forall j, (j < n)%nat -> off r X j = off t U j + c * zz (off s W) j + g j.
  Proof.
    intros Hc Hr Hs HX Hw.
    assert (Hrr : t <= r <= t + dt) by (subst r; nra).
    exists (perturb n h dt c (v s) (off s W) (fun j => v r j - v t j - (r - t) * full (v s) j)). split.
    - apply perturb_bound; auto.
    - intros j Hj. unfold off at 1. rewrite HX by auto. unfold perturb. pose proof (full_diff n h mu eta W (v s) j) as D.
      fold (off s W) in D. unfold LineStage.zz. replace (r - t) with (c * dt) by (subst r; ring).
      replace (U j) with (off t U j + v t j) by (unfold off; ring).
      replace (full W j) with (full (v s) j + (lin n h mu eta (off s W) j + rest n h (v s) (off s W) j)) by lra. ring.
  Qed.

  Notation growth := (growth nu C0 M).
  Lemma sizes (e e2 e3 e4 : nat -> R) (b : bool) :
    nr e2 <= nr e + 3 * nr e + T' -> nr e3 <= nr e + 3 * nr e2 + T' -> nr e4 <= nr e + 3 * nr e3 + T' ->
    nr (dp n h e2) <= nr (dp n h e) + 2 * nr (dp n h e) + nr e + T' ->
    nr (dp n h e3) <= nr (dp n h e) + 2 * nr (dp n h e2) + nr e2 + T' ->
    nr (dp n h e4) <= nr (dp n h e) + 2 * nr (dp n h e3) + nr e3 + T' ->
    2 * (size n h M T e + size n h M T e2 + size n h M T e3 + size n h M T e4) <= Kg M * (nr (dp n h e) + nr e + T').
  Proof.
    intros A2 A3 A4 B2 B3 B4. unfold size, Kg.
    pose proof (T'_pos n T HT) as PT. pose proof (nr_pos n e). pose proof (nr_pos n (dp n h e)).
    set (tt := T') in *. set (a := nr e) in *. set (s := nr (dp n h e)) in *.
    assert (X : (s + a) + (nr (dp n h e2) + nr e2) + (nr (dp n h e3) + nr e3) + (nr (dp n h e4) + nr e4) <= 96 * (s + a + tt)) by lra.
    assert (2 * ((M + 1) * ((s + a) + (nr (dp n h e2) + nr e2) + (nr (dp n h e3) + nr e3) + (nr (dp n h e4) + nr e4))) <= 2 * ((M + 1) * (96 * (s + a + tt)))).
    { apply Rmult_le_compat_l; [lra|]. apply Rmult_le_compat_l; lra. }
    assert (8 * tt <= 8 * ((M + 1) * (s + a + tt))).
    { apply Rmult_le_compat_l; [lra|]. assert (1 * (s + a + tt) <= (M + 1) * (s + a + tt)) by (apply Rmult_le_compat_r; lra). lra. }
    lra.
  Qed.

  Theorem step_error s (trend : @trendT RF (list nat)) (u : list nat -> R) :
    (forall t u, exists r, trend t u = Ok r /\ forall j, (j < n)%nat -> at0 r j = full (at0 u) j) ->
    40 * nr (off t (at0 u)) + 13 * T' <= 1 ->
    exists u', @onestep_fun RF (list nat) s trend t u dt = Ok u' /\
      nr (off (t + dt) (at0 u')) ^ 2 <= (1 + growth * dt) * nr (off t (at0 u)) ^ 2 + growth * dt * T' ^ 2.
  Proof.
    intros Tr Sm. set (e := off t (at0 u)) in *. pose proof (nr_pos n e) as Pa. pose proof (T'_pos n T HT) as PT.
    assert (SP := size_pos n h M T HM HT).
    assert (KgP : forall x y, size n h M T x <= y -> 0 <= y) by (intros x y; pose proof (SP x); lra).
    destruct s; cbn [onestep_fun].
    - (* euler *)
      unfold euler. destruct (Tr t u) as (k1 & -> & H1). cbn [bind]. eexists. split; [reflexivity|].
      match goal with |- nr (off _ (at0 ?x)) ^ 2 <= _ => set (u' := x) end.
      destruct (stage_error 1 (t + dt) t (at0 u) (at0 u) (at0 u')) as (g & Hg & Eg); try lra; auto.
      { intros j Hj. unfold u'. rewrite at0_step, H1 by auto. ring. }
      { fold e. lra. }
      fold e in Hg, Eg. pose proof (euler_unroll n h mu eta dt e _ g Eg) as Un.
      apply (step_energy n h mu eta dt Hh He Hdt Stable nu C0 Hnu HC0 Dis M T HM HT Small1 Small4 SEuler e _ (size n h M T e)); auto; [lra|].
      unfold size, Kg. pose proof (nr_pos n (dp n h e)). assert (0 <= M * T') by (apply Rmult_le_pos; auto).
      assert (0 <= M * nr e) by (apply Rmult_le_pos; auto). assert (0 <= M * nr (dp n h e)) by (apply Rmult_le_pos; auto). lra.
    - (* rk2 *)
      unfold rk2. destruct (Tr t u) as (k1 & -> & H1). cbn [bind].
      match goal with |- context [trend ?a ?b] => set (u2 := b); destruct (Tr a u2) as (k2 & -> & H2) end. cbn [bind].
      eexists. split; [reflexivity|]. match goal with |- nr (off _ (at0 ?x)) ^ 2 <= _ => set (u' := x) end.
      destruct (stage_error (1 / 2) (t + dt / 2) t (at0 u) (at0 u) (at0 u2)) as (g1 & Hg1 & E1); try lra; auto.
      { intros j Hj. unfold u2. rewrite at0_step, H1 by auto. rewrite half_is. field. }
      { fold e. lra. }
      fold e in Hg1, E1. set (e2 := off (t + dt / 2) (at0 u2)) in *.
      pose proof (stage_norm n h mu eta dt Hh He Hdt Stable M T HM HT Small1 Small2 Small3 (1 / 2) e e g1 e2 ltac:(lra) Hg1 E1) as N2.
      pose proof (stage_slope n h mu eta dt Hh He Hdt Stable M T HM HT Small3 (1 / 2) e e g1 e2 ltac:(lra) Hg1 E1) as Q2.
      destruct (stage_error 1 (t + dt) (t + dt / 2) (at0 u) (at0 u2) (at0 u')) as (g' & Hg' & E'); try lra; auto.
      { intros j Hj. unfold u'. rewrite at0_step, H2 by auto. ring. }
      { fold e2. lra. }
      fold e e2 in Hg', E'. pose proof (rk2_unroll n h mu eta dt Hh He Hdt Stable e e2 _ g1 g' E1 E') as Un.
      pose proof (nr_pos n (dp n h e)). pose proof (nr_pos n (dp n h e2)). pose proof (nr_pos n e2).
      pose proof (sizes e e2 e2 e2 true) as Sz.
      apply (step_energy n h mu eta dt Hh He Hdt Stable nu C0 Hnu HC0 Dis M T HM HT Small1 Small4 SRk2 e _ (size n h M T e + size n h M T e2)).
      + lra.
      + pose proof (SP e). pose proof (SP e2). lra.
      + pose proof (SP e). pose proof (SP e2). assert (X := Sz ltac:(lra) ltac:(lra) ltac:(lra) ltac:(lra) ltac:(lra) ltac:(lra)). lra.
    - (* rk4 *)
      unfold rk4. destruct (Tr t u) as (k1 & -> & H1). cbn [bind].
      match goal with |- context [trend ?a ?b] => set (u2 := b); destruct (Tr a u2) as (k2 & -> & H2) end. cbn [bind].
      match goal with |- context [trend ?a ?b] => set (u3 := b); destruct (Tr a u3) as (k3 & -> & H3) end. cbn [bind].
      match goal with |- context [trend ?a ?b] => set (u4 := b); destruct (Tr a u4) as (k4 & -> & H4) end. cbn [bind].
      eexists. split; [reflexivity|]. match goal with |- nr (off _ (at0 ?x)) ^ 2 <= _ => set (u' := x) end.
      destruct (stage_error (1 / 2) (t + dt / 2) t (at0 u) (at0 u) (at0 u2)) as (g1 & Hg1 & E1); try lra; auto.
      { intros j Hj. unfold u2. rewrite at0_step, H1 by auto. rewrite half_is. field. }
      { fold e. lra. }
      fold e in Hg1, E1. set (e2 := off (t + dt / 2) (at0 u2)) in *.
      pose proof (stage_norm n h mu eta dt Hh He Hdt Stable M T HM HT Small1 Small2 Small3 (1 / 2) e e g1 e2 ltac:(lra) Hg1 E1) as N2.
      pose proof (stage_slope n h mu eta dt Hh He Hdt Stable M T HM HT Small3 (1 / 2) e e g1 e2 ltac:(lra) Hg1 E1) as Q2.
      destruct (stage_error (1 / 2) (t + dt / 2) (t + dt / 2) (at0 u) (at0 u2) (at0 u3)) as (g2 & Hg2 & E2); try lra; auto.
      { intros j Hj. unfold u3. rewrite at0_step, H2 by auto. rewrite half_is. field. }
      { fold e2. lra. }
      fold e e2 in Hg2, E2. set (e3 := off (t + dt / 2) (at0 u3)) in *.
      pose proof (stage_norm n h mu eta dt Hh He Hdt Stable M T HM HT Small1 Small2 Small3 (1 / 2) e e2 g2 e3 ltac:(lra) Hg2 E2) as N3.
      pose proof (stage_slope n h mu eta dt Hh He Hdt Stable M T HM HT Small3 (1 / 2) e e2 g2 e3 ltac:(lra) Hg2 E2) as Q3.
      destruct (stage_error 1 (t + dt) (t + dt / 2) (at0 u) (at0 u3) (at0 u4)) as (g3 & Hg3 & E3); try lra; auto.
      { intros j Hj. unfold u4. rewrite at0_step, H3 by auto. ring. }
      { fold e3. lra. }
      fold e e3 in Hg3, E3. set (e4 := off (t + dt) (at0 u4)) in *.
      pose proof (stage_norm n h mu eta dt Hh He Hdt Stable M T HM HT Small1 Small2 Small3 1 e e3 g3 e4 ltac:(lra) Hg3 E3) as N4.
      pose proof (stage_slope n h mu eta dt Hh He Hdt Stable M T HM HT Small3 1 e e3 g3 e4 ltac:(lra) Hg3 E3) as Q4.
      (* the last combination, from each of the four trends *)
      destruct (stage_error 1 (t + dt) t (at0 u) (at0 u) (fun j => at0 u j + 1 * dt * full (at0 u) j)) as (f1 & Hf1 & F1); try lra; auto; [fold e; lra|].
      destruct (stage_error 1 (t + dt) (t + dt / 2) (at0 u) (at0 u2) (fun j => at0 u j + 1 * dt * full (at0 u2) j)) as (f2 & Hf2 & F2); try lra; auto; [fold e2; lra|].
      destruct (stage_error 1 (t + dt) (t + dt / 2) (at0 u) (at0 u3) (fun j => at0 u j + 1 * dt * full (at0 u3) j)) as (f3 & Hf3 & F3); try lra; auto; [fold e3; lra|].
      destruct (stage_error 1 (t + dt) (t + dt) (at0 u) (at0 u4) (fun j => at0 u j + 1 * dt * full (at0 u4) j)) as (f4 & Hf4 & F4); try lra; auto; [fold e4; lra|].
      fold e in Hf1, F1. fold e e2 in Hf2, F2. fold e e3 in Hf3, F3. fold e e4 in Hf4, F4.
      assert (E' : forall j, (j < n)%nat -> off (t + dt) (at0 u') j = e j + (zz e j + 2 * zz e2 j + 2 * zz e3 j + zz e4 j) / 6
        + (1 / 6 * f1 j + 1 / 3 * f2 j + 1 / 3 * f3 j + 1 / 6 * f4 j)).
      { intros j Hj. specialize (F1 j Hj). specialize (F2 j Hj). specialize (F3 j Hj). specialize (F4 j Hj). unfold off in F1, F2, F3, F4.
        unfold off at 1. unfold u'. rewrite at0_step, sixth_is.
        change (at0 (@vadd RF (list nat) (@vadd RF (list nat) (@vadd RF (list nat) k1 (@vscale RF (list nat) (@fnat RF 2) k2)) (@vscale RF (list nat) (@fnat RF 2) k3)) k4) j)
          with (at0 k1 j + @fnat RF 2 * at0 k2 j + @fnat RF 2 * at0 k3 j + at0 k4 j). rewrite two_is, H1, H2, H3, H4 by auto.
        lra. }
      pose proof (rk4_unroll n h mu eta dt Hh He Hdt Stable e e2 e3 e4 _ g1 g2 g3 _ E1 E2 E3 E') as Un.
      assert (Hg' : nr (fun j => 1 / 6 * f1 j + 1 / 3 * f2 j + 1 / 3 * f3 j + 1 / 6 * f4 j) <=
        dt * (size n h M T e + size n h M T e2 + size n h M T e3 + size n h M T e4)).
      { eapply Rle_trans.
        - apply (nr_add' n (fun j => 1 / 6 * f1 j + 1 / 3 * f2 j + 1 / 3 * f3 j) (fun j => 1 / 6 * f4 j)
            ((1 / 6 * (dt * size n h M T e) + 1 / 3 * (dt * size n h M T e2)) + 1 / 3 * (dt * size n h M T e3)) (1 / 6 * (dt * size n h M T e4))).
          + apply (nr_add' n (fun j => 1 / 6 * f1 j + 1 / 3 * f2 j) (fun j => 1 / 3 * f3 j)); [|apply nr_scale'; lra].
            apply (nr_add' n (fun j => 1 / 6 * f1 j) (fun j => 1 / 3 * f2 j)); apply nr_scale'; lra.
          + apply nr_scale'; lra.
        - assert (P : forall x, 0 <= dt * size n h M T x) by (intros x; apply Rmult_le_pos; auto).
          pose proof (P e). pose proof (P e2). pose proof (P e3). pose proof (P e4). lra. }
      pose proof (sizes e e2 e3 e4 true N2 N3 N4 Q2 Q3 Q4) as Sz.
      pose proof (SP e). pose proof (SP e2). pose proof (SP e3). pose proof (SP e4).
      apply (step_energy n h mu eta dt Hh He Hdt Stable nu C0 Hnu HC0 Dis M T HM HT Small1 Small4 SRk4 e _
        (2 * (size n h M T e + size n h M T e2 + size n h M T e3 + size n h M T e4))).
      + assert (0 <= dt * size n h M T e4) by (apply Rmult_le_pos; auto). lra.
      + lra.
      + exact Sz.
  Qed.
End Step.
