(** The tangent linear model of the Burgers dynamics as discretised by the generated class. *)
From Coq Require Import String List Arith Lia Reals Lra Permutation FunctionalExtensionality.
From Verif Require Import PyBase PyBaseFacts Scalars FieldFacts FDReal GridModel ForecastModel ForecastSpec SchemesModel SchemesSpec EnsembleProofs ModelProofs
  LineModel LineSpec LineProofs LineConv LineCases LineProps TangentSpec TangentProofs.
Import ListNotations.
Open Scope R_scope.

Lemma cells_bounded n (u : list nat -> R) : exists M, 0 <= M /\ forall j, (j < n)%nat -> Rabs (u [O; j]) <= M.
Proof.
  induction n as [|n (M & P & H)]; [exists 0; split; [lra|intros; lia]|].
  exists (M + Rabs (u [O; n])). pose proof (Rabs_pos (u [O; n])). split; [lra|]. intros j Hj.
  destruct (Nat.eq_dec j n) as [->|Q]; [lra|]. specialize (H j ltac:(lia)). lra.
Qed.

Lemma abs_le x m : Rabs x <= m -> - m <= x <= m.
Proof. intros H. split; [|pose proof (Rle_abs x); lra]. pose proof (Rle_abs (- x)). rewrite Rabs_Ropp in *. lra. Qed.
Lemma abs_mul x y a b : Rabs x <= a -> Rabs y <= b -> Rabs (x * y) <= a * b.
Proof. intros. rewrite Rabs_mult. apply Rmult_le_compat; auto using Rabs_pos. Qed.
Lemma abs_div x a b : 0 < b -> Rabs x <= a -> Rabs (x / b) <= a / b.
Proof.
  intros Hb H. unfold Rdiv. rewrite Rabs_mult, (Rabs_pos_eq (/ b)) by (left; apply Rinv_0_lt_compat; auto).
  apply Rmult_le_compat_r; [left; apply Rinv_0_lt_compat; auto|auto].
Qed.
Lemma le_abs x m : - m <= x <= m -> Rabs x <= m.
Proof. intros H. apply Rabs_le. exact H. Qed.

Section Burgers.
  Variables (L kappa : R) (n : nat).
  Hypothesis PL : 0 < L.
  Variable G : R -> (list nat -> R) -> res (list nat -> R).
  Hypothesis HG : forall t state, exists r, G t state = Ok r /\
    forall j, (j < n)%nat -> let h := L / INR n in
      let u := state [O; j] in let next := state [O; (j + 1) mod n]%nat in let prev := state [O; (j + n - 1) mod n]%nat in
      r [O; j] = - u * ((next - prev) / (2 * h)) + kappa * ((next - 2 * u + prev) / h ^ 2).
  Definition gf (t : R) (u : list nat -> R) : list nat -> R := match G t u with Ok r => r | Err _ => u end.
  Lemma gf_pure : G = @pure RF (list nat) gf.
  Proof.
    apply functional_extensionality. intros t. apply functional_extensionality. intros u.
    unfold pure, gf. destruct (HG t u) as (r & E & _). rewrite E. reflexivity.
  Qed.
  Lemma gf_val t (u : list nat -> R) j : (j < n)%nat -> let h := L / INR n in
      gf t u [O; j] = - u [O; j] * ((u [O; (j + 1) mod n]%nat - u [O; (j + n - 1) mod n]%nat) / (2 * h))
        + kappa * ((u [O; (j + 1) mod n]%nat - 2 * u [O; j] + u [O; (j + n - 1) mod n]%nat) / h ^ 2).
  Proof. intros Hj. cbv zeta. unfold gf. destruct (HG t u) as (r & E & H). rewrite E. exact (H j Hj). Qed.

  Lemma burgers_is_tangent : tangent (cell n) gf (burgers_tangent L kappa n).
  Proof.
    assert (IN : forall j, (j < n)%nat -> 0 < L / INR n).
    { intros j Hj. apply Rdiv_lt_0_compat; [exact PL|]. apply lt_0_INR. lia. }
    assert (NX : forall j, (j < n)%nat -> ((j + 1) mod n < n)%nat) by (intros; apply Nat.mod_upper_bound; lia).
    assert (PV : forall j, (j < n)%nat -> ((j + n - 1) mod n < n)%nat) by (intros; apply Nat.mod_upper_bound; lia).
    split.
    - intros t u. exists (/ (L / INR n)), 1. split; [lra|]. intros p m Hm Hp i (j & Hj & ->).
      rewrite !gf_val by exact Hj. cbv zeta. unfold burgers_tangent. cbv zeta.
      pose proof (IN j Hj) as Hh. set (h := L / INR n) in *.
      assert (P0 := Hp [O; j] (ex_intro _ j (conj Hj eq_refl))).
      assert (P1 := Hp [O; (j + 1) mod n]%nat (ex_intro _ _ (conj (NX j Hj) eq_refl))).
      assert (P2 := Hp [O; (j + n - 1) mod n]%nat (ex_intro _ _ (conj (PV j Hj) eq_refl))).
      set (a := p [O; j]) in *. set (b := p [O; (j + 1) mod n]%nat) in *. set (c := p [O; (j + n - 1) mod n]%nat) in *.
      match goal with |- Rabs ?e <= _ => replace e with (- (a * ((b - c) / (2 * h)))) by (unfold Rdiv; ring) end.
      rewrite Rabs_Ropp. replace (/ h * m ^ 2) with (m * (2 * m / (2 * h))) by (field; lra).
      apply abs_mul; [exact P0|]. apply abs_div; [lra|]. apply le_abs.
      apply abs_le in P1. apply abs_le in P2. lra.
    - intros t u c p q i (j & Hj & ->). unfold burgers_tangent. cbv zeta. unfold Rdiv. ring.
    - intros t u. destruct (cells_bounded n u) as (M & M0 & HM).
      exists (2 * M / (2 * (L / INR n)) + M * (2 / (2 * (L / INR n))) + Rabs kappa * (4 / (L / INR n) ^ 2)). intros p m Hp i (j & Hj & ->).
      unfold burgers_tangent. cbv zeta. pose proof (IN j Hj) as Hh. set (h := L / INR n) in *.
      assert (P0 := Hp [O; j] (ex_intro _ j (conj Hj eq_refl))).
      assert (P1 := Hp [O; (j + 1) mod n]%nat (ex_intro _ _ (conj (NX j Hj) eq_refl))).
      assert (P2 := Hp [O; (j + n - 1) mod n]%nat (ex_intro _ _ (conj (PV j Hj) eq_refl))).
      assert (U0 := HM j Hj). assert (U1 := HM _ (NX j Hj)). assert (U2 := HM _ (PV j Hj)).
      set (a := p [O; j]) in *. set (b := p [O; (j + 1) mod n]%nat) in *. set (c := p [O; (j + n - 1) mod n]%nat) in *.
      set (a' := u [O; j]) in *. set (b' := u [O; (j + 1) mod n]%nat) in *. set (c' := u [O; (j + n - 1) mod n]%nat) in *.
      assert (A1 : Rabs (a * ((b' - c') / (2 * h))) <= m * (2 * M / (2 * h))).
      { apply abs_mul; [exact P0|]. apply abs_div; [lra|]. apply le_abs. apply abs_le in U1. apply abs_le in U2. lra. }
      assert (A2 : Rabs (a' * ((b - c) / (2 * h))) <= M * (2 * m / (2 * h))).
      { apply abs_mul; [exact U0|]. apply abs_div; [lra|]. apply le_abs. apply abs_le in P1. apply abs_le in P2. lra. }
      assert (A3 : Rabs (kappa * ((b - 2 * a + c) / h ^ 2)) <= Rabs kappa * (4 * m / h ^ 2)).
      { apply abs_mul; [lra|]. apply abs_div; [apply pow_lt; lra|]. apply le_abs. apply abs_le in P0. apply abs_le in P1. apply abs_le in P2. lra. }
      match goal with |- _ <= ?r => replace r with (m * (2 * M / (2 * h)) + M * (2 * m / (2 * h)) + Rabs kappa * (4 * m / h ^ 2)) by (unfold Rdiv; ring) end.
      apply abs_le in A1. apply abs_le in A2. apply abs_le in A3. apply le_abs. lra.
  Qed.
  Lemma cells_size p : exists P, size (cell n) P p.
  Proof. destruct (cells_bounded n p) as (M & _ & H). exists M. intros i (j & Hj & ->). apply H. exact Hj. Qed.

  Lemma burgers_tl s w sv l state perts : w <> [] -> saved_list w sv = Some l -> NoDup l ->
    exists C h0, 0 < h0 /\ forall h ens, 0 < h <= h0 ->
      pool_ens Req_EM_T Rminus (@onestep_fun RF (list nat) s) G ens ->
      exists fc tl,
        forecast_tl Req_EM_T Rminus (@onestep_fun RF (list nat) s) G
          (fun st p => @vadd RF (list nat) st (@vscale RF (list nat) h p)) (fun a b => @vdiv RF (list nat) (@vsub RF (list nat) a b) h) ens w state perts sv = Ok (fc, tl) /\
        forecast Req_EM_T Rminus (@onestep_fun RF (list nat) s) G w state sv = Ok fc /\ dkeys tl = l /\
        (forall t, In t l -> In t w -> exists vs, dget Req_EM_T t tl = Some vs /\
           Forall2 (fun p v => exists d z, forecast Req_EM_T Rminus (@onestep_fun RF (list nat + list nat) s) (tangent_trend gf (burgers_tangent L kappa n)) w (both state p) sv = Ok d /\
             dget Req_EM_T t d = Some z /\ apart (cell n) (C * h) v (fun i => z (inr i))) perts vs) /\
        (forall t, In t l -> ~ In t w -> dget Req_EM_T t tl = Some []).
  Proof.
    intros Hw Hl ND. rewrite gf_pure. apply (tl_converges (cell n) gf (burgers_tangent L kappa n) burgers_is_tangent); auto.
    - intros ->. discriminate.
    - intros p _. apply cells_size.
  Qed.
End Burgers.
