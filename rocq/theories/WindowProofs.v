From Coq Require Import List Arith QArith Qcanon Qround Qabs ZArith Lia Lqa Field.
From Verif Require Import PyBase PyBaseFacts Scalars ForecastModel ForecastSpec ForecastProofs
  WindowModel WindowSpec.
Import ListNotations.

(** ** window *)
Lemma Qc_this_eq (a b : Qc) : (this a == this b)%Q -> a = b.
Proof. apply Qc_is_canon. Qed.

Lemma this_add (a b : Qc) : (this (a + b)%Qc == this a + this b)%Q.
Proof. unfold Qcplus, Q2Qc, this at 1. apply Qred_correct. Qed.
Lemma this_mul (a b : Qc) : (this (a * b)%Qc == this a * this b)%Q.
Proof. unfold Qcmult, Q2Qc, this at 1. apply Qred_correct. Qed.
Lemma this_inj (a : Q) : (this (Q2Qc a) == a)%Q.
Proof. apply Qred_correct. Qed.

(** the value whose ceiling is the number of points *)
Definition span (dt endt start : Qc) : Q := (this endt - this start) / this dt + (1 # 3).

Lemma span_eq dt endt start : dt <> 0%Qc ->
  (this ((endt + dt / Q2Qc 3 - start) / dt)%Qc == span dt endt start)%Q.
Proof.
  intros Hd. unfold span.
  assert (Hd' : ~ (this dt == 0)%Q) by (intros E; apply Hd, Qc_is_canon; exact E).
  unfold Qcdiv, Qcminus, Qcplus, Qcmult, Qcinv, Qcopp, Q2Qc, this.
  destruct dt as [d pd], endt as [e pe], start as [s ps]. cbn [this] in *.
  rewrite !Qred_correct. field. exact Hd'.
Qed.

Definition npoints (dt endt start : Qc) : nat := Z.to_nat (Qceiling (span dt endt start)).

Lemma window_eq dt endt start : dt <> 0%Qc ->
  window dt endt start =
  Ok (map (fun i => start + Q2Qc (inject_Z (Z.of_nat i)) * dt)%Qc (seq 0 (npoints dt endt start))).
Proof.
  intros Hd. unfold window, arange. destruct (Qc_eq_dec dt 0) as [E|_]; [congruence|].
  unfold npoints. rewrite (Qceiling_comp _ _ (span_eq dt endt start Hd)). reflexivity.
Qed.

Lemma window_zero endt start : window 0 endt start = Err ZeroDivisionError.
Proof. reflexivity. Qed.

Lemma ceil_nat x k : (inject_Z (Z.of_nat k) < x <= inject_Z (Z.of_nat k + 1))%Q <->
  Z.to_nat (Qceiling x) = S k.
Proof.
  pose proof (Qle_ceiling x) as H1. pose proof (Qceiling_lt x) as H2.
  split.
  - intros [Ha Hb].
    assert (Qceiling x = Z.of_nat k + 1)%Z; [|lia].
    assert (G1 : (Z.of_nat k < Qceiling x)%Z) by (rewrite Zlt_Qlt; eapply Qlt_le_trans; eauto).
    assert (G2 : (Qceiling x - 1 < Z.of_nat k + 1)%Z) by (rewrite Zlt_Qlt; eapply Qlt_le_trans; eauto).
    lia.
  - intros E. assert (E' : Qceiling x = (Z.of_nat k + 1)%Z) by lia.
    rewrite E' in *. split; auto. replace (Z.of_nat k + 1 - 1)%Z with (Z.of_nat k) in H2 by lia. auto.
Qed.

Lemma window_points dt endt start n :
  dt <> 0%Qc ->
  (Qabs ((this endt - this start) / this dt - inject_Z (Z.of_nat n)) < 1 # 3)%Q ->
  window dt endt start =
  Ok (map (fun i => start + Q2Qc (inject_Z (Z.of_nat i)) * dt)%Qc (seq 0 (S n))).
Proof.
  intros Hd H. rewrite window_eq by auto. repeat f_equal. unfold npoints, span.
  apply Qabs_Qlt_condition in H as [H1 H2]. apply ceil_nat.
  set (q := ((this endt - this start) / this dt)%Q) in *.
  rewrite inject_Z_plus. set (z := inject_Z (Z.of_nat n)) in *.
  change (inject_Z 1) with 1%Q. split; lra.
Qed.

(** last point within [end - 2dt/3, end + dt/3) *)
Lemma window_last dt endt start w t :
  (0 < this dt)%Q -> window dt endt start = Ok w -> last_opt w = Some t ->
  (this endt - (2#3) * this dt <= this t < this endt + (1#3) * this dt)%Q.
Proof.
  intros Hd Hw Hl.
  assert (Hd0 : dt <> 0%Qc) by (intros ->; inversion Hd).
  rewrite window_eq in Hw by auto. inversion Hw; subst w; clear Hw.
  destruct (npoints dt endt start) as [|n] eqn:En; [discriminate|].
  unfold npoints in En. apply ceil_nat in En as [E1 E2].
  rewrite seq_S, map_app in Hl. cbn [map] in Hl. rewrite last_opt_app in Hl. inversion Hl; subst t; clear Hl.
  assert (Ht : (this (start + Q2Qc (inject_Z (Z.of_nat (0+n))) * dt)%Qc ==
              this start + inject_Z (Z.of_nat n) * this dt)%Q).
  { rewrite this_add, this_mul, this_inj. reflexivity. }
  rewrite Ht. unfold span in *.
  set (q := ((this endt - this start) / this dt)%Q) in *.
  assert (Hq : (this endt == this start + q * this dt)%Q).
  { unfold q. field. intros E. rewrite E in Hd. discriminate. }
  rewrite inject_Z_plus in E2. set (z := inject_Z (Z.of_nat n)) in *.
  change (inject_Z 1) with 1%Q in E2.
  assert (G1 : (z * this dt < (q + (1#3)) * this dt)%Q) by (apply Qmult_lt_compat_r; auto).
  assert (G2 : ((q + (1#3)) * this dt <= (z + 1) * this dt)%Q)
    by (apply Qmult_le_compat_r; auto; apply Qlt_le_weak; auto).
  split; lra.
Qed.

(** empty window *)
Lemma window_empty dt endt start :
  dt <> 0%Qc -> ((this endt - this start) / this dt <= -(1#3))%Q ->
  window dt endt start = Ok [].
Proof.
  intros Hd H. rewrite window_eq by auto.
  replace (npoints dt endt start) with O; [reflexivity|].
  unfold npoints, span. set (q := ((this endt - this start) / this dt)%Q) in *.
  assert (G : (Qceiling (q + (1#3)) <= 0)%Z); [|lia].
  apply (Z.le_trans _ (Qceiling 0%Q)); [apply Qceiling_resp_le; lra|discriminate].
Qed.

(** ** randstate *)
Close Scope Q_scope.
Close Scope Qc_scope.
Section Rand.
  Local Open Scope nat_scope.
  Context {K : Fld} {S TR : Type}.
  Variable teq : forall a b : K, {a = b} + {a <> b}.
  Variable scheme : TR -> K -> S -> K -> res S.
  Variable trend : TR.
  Add Field Kr : (f_th K).

  Lemma diff_dt i (dt : K) : fsub (fmul (fnat (Datatypes.S i)) dt) (fmul (fnat i) dt) = dt.
  Proof. simpl. ring. Qed.

  Lemma nth_times m n (dt : K) k : k < n ->
    nth_error (map (fun i => fmul (fnat i) dt) (seq m n)) k = Some (fmul (fnat (m + k)) dt).
  Proof.
    intros H. rewrite nth_error_map, (nth_error_nth' (seq m n) 0) by (rewrite seq_length; auto).
    rewrite seq_nth by auto. reflexivity.
  Qed.

  (** steps starting at index m *)
  Fixpoint runm (m : nat) (dt : K) (u0 : S) (k : nat) : res S :=
    match k with
    | O => Ok u0
    | Datatypes.S j => bind (runm m dt u0 j) (fun u => scheme trend (fmul (fnat (m + j)) dt) u dt)
    end.

  Lemma runm_shift k : forall m dt u0,
    runm m dt u0 (Datatypes.S k) =
    bind (scheme trend (fmul (fnat m) dt) u0 dt) (fun u => runm (Datatypes.S m) dt u k).
  Proof.
    induction k as [|k IH]; intros m dt u0.
    - simpl. rewrite Nat.add_0_r. destruct (scheme trend _ u0 dt); reflexivity.
    - cbn [runm]. cbn [runm] in IH. rewrite IH.
      destruct (scheme trend (fmul (fnat m) dt) u0 dt) as [u1|]; auto. cbn [bind runm].
      replace (m + Datatypes.S k) with (Datatypes.S m + k) by lia. reflexivity.
  Qed.

  Lemma runm0 k dt u0 : runm 0 dt u0 k = run scheme trend dt u0 k.
  Proof. induction k; simpl; auto. rewrite IHk. reflexivity. Qed.

  Lemma reach_runm k : forall m n dt u0 u, k < n ->
    (reach fsub scheme trend (map (fun i => fmul (fnat i) dt) (seq m n)) u0 k u
     <-> runm m dt u0 k = Ok u).
  Proof.
    induction k as [|k IH]; intros m n dt u0 u Hk.
    - destruct n; [lia|]. simpl. split; intros H; inversion H; subst; auto. constructor.
    - destruct n as [|[|n]]; [lia|lia|].
      rewrite runm_shift. cbn [seq map]. split.
      + intros H. inversion H; subst.
        match goal with E : scheme _ _ _ _ = Ok _ |- _ =>
          change (fadd f1 (fnat m)) with (@fnat K (Datatypes.S m)) in E;
          rewrite diff_dt in E; rewrite E end.
        cbn [bind].
        eapply (IH (Datatypes.S m) (Datatypes.S n)); [lia|]. cbn [seq map]. eauto.
      + intros H. destruct (scheme trend (fmul (fnat m) dt) u0 dt) as [u1|] eqn:E; [|discriminate].
        cbn [bind] in H. econstructor; [rewrite diff_dt; eauto|].
        apply (IH (Datatypes.S m) (Datatypes.S n)) in H; [|lia]. exact H.
  Qed.

  Lemma runm_fail m dt u0 e : forall k, runm m dt u0 k = Err e ->
    exists j u, j < k /\ runm m dt u0 j = Ok u /\ scheme trend (fmul (fnat (m+j)) dt) u dt = Err e.
  Proof.
    induction k as [|k IH]; simpl; [discriminate|].
    destruct (runm m dt u0 k) as [u|e'] eqn:E; simpl; intros H.
    - exists k, u. auto.
    - inversion H; subst. destruct IH as (j & u & Hj & H1 & H2); auto. exists j, u. auto.
  Qed.

  Lemma randstate_run n (dt : K) xo :
    randstate teq scheme trend (Datatypes.S n) dt xo = run scheme trend dt xo n.
  Proof.
    unfold randstate, rand_times.
    set (w := map (fun i => fmul (fnat i) dt) (seq 0 (Datatypes.S n))).
    assert (Hl : last_opt w = Some (fmul (fnat n) dt)).
    { unfold w. rewrite seq_S, map_app. cbn [map]. rewrite last_opt_app. reflexivity. }
    assert (Hlen : length w = Datatypes.S n) by (unfold w; rewrite map_length, seq_length; auto).
    rewrite Hl. set (te := fmul (fnat n) dt) in *.
    destruct (forecast teq fsub scheme trend w xo (SIter [te])) as [d|e] eqn:E; cbn [bind].
    - destruct (run scheme trend dt xo n) as [u|e'] eqn:Er.
      + unfold dgetE. replace (dget teq te d) with (Some u); [reflexivity|]. symmetry.
        apply (forecast_values _ _ _ _ _ _ _ _ E). split; [left; reflexivity|].
        exists n. split; [|split].
        * unfold w. rewrite nth_times by lia. reflexivity.
        * intros k' Hk' Hn. assert (k' < length w) by (apply nth_error_Some; congruence). lia.
        * apply (reach_runm n 0 (Datatypes.S n)); [lia|]. rewrite runm0. auto.
      + exfalso. rewrite <- runm0 in Er. apply runm_fail in Er as (j & u & Hj & H1 & H2).
        assert (Herr : forecast teq fsub scheme trend w xo (SIter [te]) = Err e').
        { apply forecast_Err. right; right. split; [discriminate|].
          exists j, (fmul (fnat j) dt), (fmul (fnat (Datatypes.S j)) dt), u.
          unfold w. rewrite !nth_times by lia. repeat split; auto.
          - apply (reach_runm j 0 (Datatypes.S n)); [lia|auto].
          - rewrite diff_dt. exact H2. }
        congruence.
    - apply forecast_Err in E as [[E _]|[(_ & E & _)|[_ E]]]; [|discriminate|].
      { rewrite E in Hlen. discriminate. }
      destruct E as (k & t & t' & u & Hk & Hk' & Hr & Hs).
      assert (Hkn : Datatypes.S k < Datatypes.S n)
        by (rewrite <- Hlen; apply nth_error_Some; congruence).
      unfold w in Hk, Hk'. rewrite nth_times in Hk, Hk' by lia.
      apply (f_equal (fun o => match o with Some x => x | None => t end)) in Hk, Hk'.
      rewrite Nat.add_0_l in Hk, Hk'. rewrite <- Hk, <- Hk', diff_dt in Hs.
      apply (reach_runm k 0 (Datatypes.S n)) in Hr; [|lia]. rewrite runm0 in Hr.
      assert (G : forall j, k < j -> run scheme trend dt xo j = Err e).
      { induction j as [|j IH]; [lia|]. intros Hj. simpl.
        destruct (Nat.eq_dec k j) as [->|]; [rewrite Hr; exact Hs|].
        rewrite IH by lia. reflexivity. }
      rewrite G by lia. reflexivity.
  Qed.

  Lemma randstate_0 (dt : K) xo : randstate teq scheme trend 0 dt xo = Err IndexError.
  Proof. reflexivity. Qed.
End Rand.
