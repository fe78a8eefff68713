(** A window whose start is before its end: what [arange_length] gives without any bound
    on the magnitude of the three floats. *)
From Coq Require Import List ZArith Bool Reals Lra Lia.
From Flocq Require Import Core.Core Relative Plus_error IEEE754.BinarySingleNaN.
From Verif Require Import PyBase ForecastModel FloatModel FloatSpec FloatProofs.
Import ListNotations.
Open Scope R_scope.

(** positive and finite, or [+inf] *)
Definition above (x : b64) (r : R) : Prop := x = B754_infinity false \/ (fin x /\ r <= v x).
Definition pos (x : b64) : Prop := x = B754_infinity false \/ (fin x /\ 0 < v x).

Lemma sign_neg (x : b64) : fin x -> Bsign x = true -> v x <= 0.
Proof.
  destruct x as [s|s| |s m e H]; intros F S; try discriminate; cbn in S; subst.
  - cbn. lra.
  - apply Rlt_le. apply F2R_lt_0. reflexivity.
Qed.
Lemma sign_pos (x : b64) : fin x -> Bsign x = false -> 0 <= v x.
Proof.
  destruct x as [s|s| |s m e H]; intros F S; try discriminate; cbn in S; subst.
  - cbn. lra.
  - apply Rlt_le. apply F2R_gt_0. reflexivity.
Qed.

Lemma overflow_inf (x : b64) s : B2SF x = binary_overflow 53 1024 mode_NE s -> x = B754_infinity s.
Proof. intros E. apply (B2SF_inj 53 1024). exact E. Qed.

Lemma third_ok (dt : b64) : fin dt -> 0 < v dt -> fin (bdiv dt (of_Z 3)) /\ 0 <= v (bdiv dt (of_Z 3)).
Proof.
  intros F P. destruct (of_Z_ok 3 ltac:(lia)) as [F3 V3].
  assert (N3 : v (of_Z 3) <> 0) by (rewrite V3; lra).
  pose proof (Bdiv_correct 53 1024 _ _ mode_NE dt (of_Z 3) N3) as C.
  assert (L : 0 <= rnd (v dt / v (of_Z 3)) <= v dt).
  { rewrite V3. split.
    - rewrite <- rnd_0. apply rnd_le. lra.
    - rewrite <- (rnd_v dt) at 2. apply rnd_le. lra. }
  pose proof (abs_B2R_lt_emax 53 1024 dt) as M. rewrite Rabs_pos_eq in M by lra.
  rewrite Rlt_bool_true in C.
  - destruct C as [A [B _]]. rewrite F in B. split; [exact B|]. 
    change (v (bdiv dt (of_Z 3)) = rnd (v dt / v (of_Z 3))) in A. rewrite A. apply L.
  - change (Rabs (rnd (v dt / v (of_Z 3))) < bpow radix2 1024).
    rewrite Rabs_pos_eq by apply L. eapply Rle_lt_trans; [apply L|exact M].
Qed.

Lemma end_above (x t : b64) : fin x -> fin t -> 0 <= v t -> above (badd x t) (v x).
Proof.
  intros Fx Ft Ht. pose proof (Bplus_correct 53 1024 _ _ mode_NE x t Fx Ft) as C.
  assert (L : v x <= rnd (v x + v t)) by (rewrite <- (rnd_v x) at 1; apply rnd_le; lra).
  destruct (Rlt_bool_spec (Rabs (rnd (v x + v t))) (bpow radix2 1024)) as [H|H].
  - rewrite Rlt_bool_true in C by exact H. destruct C as [A [B _]]. right. split; [exact B|].
    change (v (badd x t) = rnd (v x + v t)) in A. rewrite A. exact L.
  - rewrite Rlt_bool_false in C by exact H. destruct C as [A B]. left. apply overflow_inf in A.
    unfold badd. rewrite A. f_equal. destruct (Bsign x) eqn:S; auto. exfalso.
    assert (T0 : v t = 0) by (pose proof (sign_neg t Ft (eq_sym B)); lra).
    rewrite T0, Rplus_0_r, rnd_v in H. pose proof (abs_B2R_lt_emax 53 1024 x) as M. unfold b64 in *. lra.
Qed.

Lemma gap_pos (x start : b64) : above x (v start + 0) -> fin start -> (fin x -> v start < v x) -> pos (bsub x start).
Proof.
  intros A Fs G. destruct A as [->|[Fx _]].
  - left. destruct start as [s|s| |s m e H]; try discriminate; reflexivity.
  - specialize (G Fx). pose proof (Bminus_correct 53 1024 _ _ mode_NE x start Fx Fs) as C.
    assert (L0 : 0 <= rnd (v x - v start)) by (rewrite <- rnd_0 at 1; apply rnd_le; lra).
    assert (L : 0 < rnd (v x - v start)).
    { destruct L0 as [L0|L0]; [exact L0|]. exfalso. symmetry in L0. revert L0.
      apply (round_plus_neq_0 radix2 (FLT_exp (-1074) 53) ZnearestE).
      - apply (generic_format_B2R 53 1024).
      - apply generic_format_opp, (generic_format_B2R 53 1024).
      - unfold b64 in *. lra. }
    destruct (Rlt_bool_spec (Rabs (rnd (v x - v start))) (bpow radix2 1024)) as [H|H].
    + rewrite Rlt_bool_true in C by exact H. destruct C as [A [B _]]. right. split; [exact B|].
      change (v (bsub x start) = rnd (v x - v start)) in A. rewrite A. exact L.
    + rewrite Rlt_bool_false in C by exact H. destruct C as [A B]. left. apply overflow_inf in A.
      unfold bsub. rewrite A. f_equal. destruct (Bsign x) eqn:S; auto. exfalso.
      pose proof (sign_neg x Fx S) as H1. pose proof (sign_pos start Fs) as H2.
      assert (S' : Bsign (start : b64) = false) by (apply negb_sym in B; exact B).
      specialize (H2 S'). unfold b64 in *. lra.
Qed.

Lemma pos_sign (x : b64) : fin x -> 0 < v x -> Bsign x = false.
Proof. intros F P. destruct (Bsign x) eqn:S; auto. pose proof (sign_neg x F S). lra. Qed.

Lemma ratio_sign (x dt : b64) : pos x -> fin dt -> 0 < v dt ->
  bdiv x dt = B754_infinity false \/ (fin (bdiv x dt) /\ Bsign (bdiv x dt) = false).
Proof.
  intros P F D. destruct P as [->|[Fx Px]].
  - left. pose proof (pos_sign dt F D) as S.
    destruct dt as [s|s| |s m e H]; try discriminate; cbn in S; subst; reflexivity.
  - pose proof (Bdiv_correct 53 1024 _ _ mode_NE x dt ltac:(lra)) as C.
    rewrite (pos_sign x Fx Px), (pos_sign dt F D) in C. cbn [xorb] in C.
    destruct (Rlt_bool_spec (Rabs (rnd (v x / v dt))) (bpow radix2 1024)) as [H|H].
    + rewrite Rlt_bool_true in C by exact H. destruct C as [_ [B S]]. right.
      rewrite Fx in B. split; [exact B|]. apply S. destruct (Bdiv mode_NE x dt); [reflexivity|discriminate|discriminate|reflexivity].
    + rewrite Rlt_bool_false in C by exact H. left. apply overflow_inf. exact C.
Qed.

Lemma ceil_pos (x : b64) : fin x -> Bsign x = false -> is_zero x = false ->
  safe_ceil x = Err ValueError \/ exists z, (1 <= z)%Z /\ safe_ceil x = Ok z.
Proof.
  destruct x as [s|s| |s m e H]; intros F S Z; try discriminate. cbn in S. subst s. cbn [safe_ceil].
  set (c := match e with Z0 => _ | _ => _ end).
  assert (C : (1 <= c)%Z).
  { destruct e as [|p|p]; unfold c; [lia| |].
    - pose proof (Zpower_pos_gt_0 2 p eq_refl). nia.
    - pose proof (Zpower_pos_gt_0 2 p eq_refl) as Q.
      assert (- Zpos m / Z.pow_pos 2 p < 0)%Z by (apply Z.div_lt_upper_bound; lia). lia. }
  destruct (_ && _)%bool; [right; exists c; auto|left; reflexivity].
Qed.

Lemma starts_of_gap dt stop start : fin dt -> 0 < v dt ->
  pos (bsub (badd stop (bdiv dt (of_Z 3))) start) ->
  fwindow dt stop start = Err ValueError \/ exists l, fwindow dt stop start = Ok (start :: l).
Proof.
  intros Fd Pd P. unfold fwindow, farange, arange_length.
  destruct (is_zero dt) eqn:Zd; [apply is_zero_v in Zd; lra|].
  set (n := bsub _ start) in *. destruct (ratio_sign n dt P Fd Pd) as [E|[F S]].
  - left. rewrite E. reflexivity.
  - destruct (is_zero (bdiv n dt)) eqn:Zv.
    + assert (Zn : is_zero n = false).
      { destruct P as [E|[_ E]]; [rewrite E; reflexivity|].
        destruct (is_zero n) eqn:Zn; auto. apply is_zero_v in Zn. lra. }
      rewrite Zn, S. right. eexists. reflexivity.
    + cbn [andb]. destruct (ceil_pos _ F S Zv) as [->|[z [Hz ->]]]; [left; reflexivity|].
      right. cbn [bind]. replace (Z.to_nat z) with (Datatypes.S (Z.to_nat (z - 1))) by lia.
      eexists. reflexivity.
Qed.

Lemma window_starts dt stop start : fin dt -> 0 < v dt -> fin stop -> fin start ->
  v start < v stop ->
  fwindow dt stop start = Err ValueError \/ exists l, fwindow dt stop start = Ok (start :: l).
Proof.
  intros Fd Pd Fe Fs L. destruct (third_ok dt Fd Pd) as [Ft Pt].
  pose proof (end_above stop _ Fe Ft Pt) as A.
  apply starts_of_gap; auto. apply gap_pos; auto.
  - destruct A as [A|[F A]]; [left; exact A|right; split; [exact F|lra]].
  - intros F. destruct A as [A|[_ A]]; [rewrite A in F; discriminate|lra].
Qed.

(** ** The boundary *)
Definition nonpos (x : b64) : Prop := x = B754_infinity true \/ (fin x /\ v x <= 0).

Lemma gap_neg (x start : b64) : fin x -> fin start -> v x <= v start -> nonpos (bsub x start).
Proof.
  intros Fx Fs G. pose proof (Bminus_correct 53 1024 _ _ mode_NE x start Fx Fs) as C.
  assert (L : rnd (v x - v start) <= 0) by (rewrite <- rnd_0 at 1; apply rnd_le; lra).
  destruct (Rlt_bool_spec (Rabs (rnd (v x - v start))) (bpow radix2 1024)) as [H|H].
  - rewrite Rlt_bool_true in C by exact H. destruct C as [A [B _]]. right. split; [exact B|].
    change (v (bsub x start) = rnd (v x - v start)) in A. rewrite A. exact L.
  - rewrite Rlt_bool_false in C by exact H. destruct C as [A B]. left. apply overflow_inf in A.
    unfold bsub. rewrite A. f_equal. destruct (Bsign x) eqn:S; auto. exfalso.
    pose proof (sign_pos x Fx S) as H1. pose proof (sign_neg start Fs) as H2.
    assert (S' : Bsign (start : b64) = true) by (apply negb_sym in B; exact B).
    specialize (H2 S'). pose proof (bpow_gt_0 radix2 1024) as Q.
    assert (Z : v x - v start = 0) by (unfold b64 in *; lra). rewrite Z, rnd_0, Rabs_R0 in H. lra.
Qed.

Lemma ratio_neg (x dt : b64) : nonpos x -> fin dt -> 0 < v dt ->
  bdiv x dt = B754_infinity true
  \/ (fin (bdiv x dt) /\ (is_zero x = true -> is_zero (bdiv x dt) = true)
      /\ (is_zero x = false -> Bsign (bdiv x dt) = true)).
Proof.
  intros P F D. pose proof (pos_sign dt F D) as Sd. destruct P as [->|[Fx Px]].
  - left. destruct dt as [s|s| |s m e H]; try discriminate; cbn in Sd; subst; reflexivity.
  - pose proof (Bdiv_correct 53 1024 _ _ mode_NE x dt ltac:(lra)) as C.
    rewrite Sd, xorb_false_r in C.
    destruct (is_zero x) eqn:Z.
    + right. destruct x as [s|s| |s m e H]; try discriminate.
      destruct dt as [s'|s'| |s' m' e' H']; try discriminate; cbn in D; [lra|].
      repeat split; try reflexivity. intros; discriminate.
    + assert (S : Bsign (x : b64) = true).
      { destruct (Bsign (x : b64)) eqn:S; auto. exfalso.
        destruct x as [s|s| |s m e H]; try discriminate. cbn in S. subst s.
        assert (0 < v (B754_finite false m e H : b64)) by (apply F2R_gt_0; reflexivity). lra. }
      rewrite S in C.
      destruct (Rlt_bool_spec (Rabs (rnd (v x / v dt))) (bpow radix2 1024)) as [H|H].
      * rewrite Rlt_bool_true in C by exact H. destruct C as [_ [B T]]. right.
        rewrite Fx in B. split; [exact B|]. split; [discriminate|]. intros _. apply T.
        destruct (Bdiv mode_NE x dt); [reflexivity|discriminate|discriminate|reflexivity].
      * rewrite Rlt_bool_false in C by exact H. left. apply overflow_inf. exact C.
Qed.

Lemma ceil_neg (x : b64) : fin x -> Bsign x = true ->
  safe_ceil x = Err ValueError \/ exists z, (z <= 0)%Z /\ safe_ceil x = Ok z.
Proof.
  destruct x as [s|s| |s m e H]; intros F S; try discriminate.
  { right. exists 0%Z. split; [lia|reflexivity]. }
  cbn in S. subst s. cbn [safe_ceil].
  set (c := match e with Z0 => _ | _ => _ end).
  assert (C : (c <= 0)%Z).
  { destruct e as [|p|p]; unfold c; [lia| |].
    - pose proof (Zpower_pos_gt_0 2 p eq_refl). nia.
    - pose proof (Zpower_pos_gt_0 2 p eq_refl) as Q.
      assert (0 <= - Zneg m / Z.pow_pos 2 p)%Z by (apply Z.div_pos; lia). lia. }
  destruct (_ && _)%bool; [right; exists c; auto|left; reflexivity].
Qed.

Lemma window_boundary dt stop start : let e := badd stop (bdiv dt (of_Z 3)) in
  fin dt -> 0 < v dt -> fin e -> fin start ->
  fwindow dt stop start = Err ValueError
  \/ exists l, fwindow dt stop start = Ok l /\ (nth_error l 0 = Some start <-> v start < v e)
              /\ (l = [] <-> v e <= v start).
Proof.
  intros e Fd Pd Fe Fs. destruct (Rlt_le_dec (v start) (v e)) as [L|L].
  - destruct (starts_of_gap dt stop start Fd Pd) as [E|[l E]]; [|left; exact E|].
    + apply gap_pos; auto. right. split; [exact Fe|]. fold e. lra.
    + right. exists (start :: l). split; [exact E|]. split; split; auto; intros H; [discriminate|lra].
  - assert (G : fwindow dt stop start = Err ValueError \/ fwindow dt stop start = Ok []).
    { pose proof (gap_neg e start Fe Fs L) as N. unfold fwindow, farange, arange_length.
      destruct (is_zero dt) eqn:Zd; [apply is_zero_v in Zd; lra|]. fold e.
      set (n := bsub e start) in *. destruct (ratio_neg n dt N Fd Pd) as [E|[F [Z1 Z2]]].
      - left. rewrite E. reflexivity.
      - destruct (is_zero n) eqn:Zn.
        + specialize (Z1 eq_refl). rewrite Z1. cbn [andb negb]. right.
          destruct (bdiv n dt); try discriminate. reflexivity.
        + specialize (Z2 eq_refl). cbn [negb]. rewrite andb_true_r, Z2.
          destruct (is_zero (bdiv n dt)); [right; reflexivity|].
          destruct (ceil_neg _ F Z2) as [->|[z [Hz ->]]]; [left; reflexivity|right].
          cbn [bind]. replace (Z.to_nat z) with 0%nat by lia. reflexivity. }
    destruct G as [E|E]; [left; exact E|right]. exists []. split; [exact E|].
    split; split; auto; intros H; [discriminate|lra].
Qed.
