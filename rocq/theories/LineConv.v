(** Convergence of the forecasts of the generated models of the diffusion and of Burgers' equation. *)
From Coq Require Import List Arith ZArith Bool Reals String Lia Lra Permutation FunctionalExtensionality Psatz.
From Verif Require Import PyBase PyBaseFacts Scalars FieldFacts FornbergModel FDSpec FornbergProofs FDReal ForecastModel ForecastSpec ForecastProofs ForecastProps
  SchemesModel SchemesSpec SchemesProofs ConsistSpec ConsistProofs ConsistMain LineModel LineSpec LineProofs.
Import ListNotations.
Open Scope R_scope.

(** ** forecasts keep an invariant *)
Section Invariant.
  Context {St TR : Type}.
  Variables (scheme : TR -> R -> St -> R -> res St) (trend : TR) (I : R -> St -> Prop).
  Notation forecast := (forecast Req_EM_T Rminus scheme trend).
  Lemma reach_keeps w u0 k v : reach Rminus scheme trend w u0 k v ->
    (forall k t t' u, nth_error w k = Some t -> nth_error w (S k) = Some t' -> I t u ->
       exists u', scheme trend t u (t' - t) = Ok u' /\ I t' u') ->
    (forall t, nth_error w 0 = Some t -> I t u0) ->
    forall t, nth_error w k = Some t -> I t v.
  Proof.
    induction 1 as [t w u|t t' w u u1 k v Hs Hr IH]; intros Step H0 s Hs'; [apply H0; exact Hs'|].
    apply IH; [|intros s' E; injection E as <-|exact Hs'].
    - intros k0 a b c H1 H2. apply (Step (S k0)); auto.
    - destruct (Step O t t' u eq_refl eq_refl (H0 t eq_refl)) as (u' & E & Hi). rewrite Hs in E. injection E as <-. exact Hi.
  Qed.
  Lemma forecast_keeps w u0 sv t0 : sv <> SOther -> nth_error w 0 = Some t0 -> I t0 u0 ->
    (forall k t t' u, nth_error w k = Some t -> nth_error w (S k) = Some t' -> I t u ->
       exists u', scheme trend t u (t' - t) = Ok u' /\ I t' u') ->
    exists traj, forecast w u0 sv = Ok traj /\
      forall t, In t w -> is_saved w sv t -> exists u, dget Req_EM_T t traj = Some u /\ I t u.
  Proof.
    intros Hs Hw H0 Step.
    assert (H0' : forall t, nth_error w 0 = Some t -> I t u0) by (intros t Ht; congruence).
    destruct (forecast w u0 sv) as [traj|e] eqn:E.
    - exists traj. split; [reflexivity|]. intros t Ht Hv.
      destruct (dget Req_EM_T t traj) as [u|] eqn:G.
      + exists u. split; [reflexivity|].
        apply (C01_forecast_values Req_EM_T Rminus scheme trend w u0 sv traj E) in G.
        destruct G as (_ & k & Hk & _ & Hr). exact (reach_keeps w u0 k u Hr Step H0' t Hk).
      + exfalso.
        assert (K : In t (dkeys traj)).
        { destruct (saved_list w sv) as [l|] eqn:Sl; [|destruct sv; try discriminate; congruence].
          apply (C01_forecast_keys Req_EM_T Rminus scheme trend w u0 sv traj E l).
          - intros s. apply saved_list_spec. exact Sl.
          - auto. }
        apply (dget_None Req_EM_T) in G. contradiction.
    - exfalso. apply forecast_Err in E. destruct E as [[-> _]|[(_ & N & _)|(_ & k & t & t' & u & Hk & Hk' & Hr & Hf)]].
      + discriminate.
      + contradiction.
      + pose proof (reach_keeps w u0 k u Hr Step H0' t Hk) as Hi.
        destruct (Step k t t' u Hk Hk' Hi) as (u' & E' & _). rewrite Hf in E'. discriminate.
  Qed.
End Invariant.

(** ** Taylor *)
Lemma Rabs_inv x y : Rabs x <= y -> - y <= x <= y.
Proof. unfold Rabs. destruct (Rcase_abs x); lra. Qed.
Lemma grow (g g' : R -> R) a b M m : a <= b -> g a = 0 ->
  (forall s, a <= s <= b -> derivable_pt_lim g s (g' s)) ->
  (forall s, a <= s <= b -> Rabs (g' s) <= M * ((s - a) ^ m / INR (fact m))) ->
  forall s, a <= s <= b -> Rabs (g s) <= M * ((s - a) ^ S m / INR (fact (S m))).
Proof.
  intros Hab G0 D Hb s Hs. 
  assert (Df : forall c, derivable_pt_lim (fun s => M * ((s - a) ^ S m / INR (fact (S m)))) c (M * ((c - a) ^ m / INR (fact m)))).
  { intros c. 
    assert (X : derivable_pt_lim (fun s => (s - a) ^ S m) c (INR (S m) * (c - a) ^ m * (1 - 0))).
    { apply (derivable_pt_lim_comp (fun s => s - a) (fun y => y ^ S m)).
      - apply (derivable_pt_lim_minus id (fun _ => a)); [apply derivable_pt_lim_id|apply derivable_pt_lim_const].
      - apply (derivable_pt_lim_pow (c - a) (S m)). }
    pose proof (derivable_pt_lim_scal _ (M / INR (fact (S m))) _ _ X) as Y.
    eapply derivable_pt_lim_ext; [|eapply dl_eq; [|exact Y]].
    - intros y. unfold mult_real_fct. field. apply INR_fact_neq_0.
    - rewrite fact_simpl, mult_INR. field. split; [apply INR_fact_neq_0|apply not_0_INR; lia]. }
  destruct (Rle_lt_or_eq_dec a s (proj1 Hs)) as [Lt|<-].
  - assert (A0 : M * ((a - a) ^ S m / INR (fact (S m))) = 0).
    { rewrite Rminus_diag_eq by auto. rewrite pow_i by lia. unfold Rdiv. ring. }
    apply Rabs_le. split.
    + destruct (MVT_cor2 (fun y => g y + M * ((y - a) ^ S m / INR (fact (S m)))) (fun c => g' c + M * ((c - a) ^ m / INR (fact m))) a s Lt) as (c & Hc & Hc').
      { intros c Hc. apply (derivable_pt_lim_plus g); [apply D; lra|apply Df]. }
      pose proof (Hb c ltac:(lra)) as B. apply Rabs_inv in B. rewrite G0, A0 in Hc.
      assert (0 <= (g' c + M * ((c - a) ^ m / INR (fact m))) * (s - a)) by (apply Rmult_le_pos; lra). lra.
    + destruct (MVT_cor2 (fun y => M * ((y - a) ^ S m / INR (fact (S m))) - g y) (fun c => M * ((c - a) ^ m / INR (fact m)) - g' c) a s Lt) as (c & Hc & Hc').
      { intros c Hc. apply (derivable_pt_lim_minus _ g); [apply Df|apply D; lra]. }
      pose proof (Hb c ltac:(lra)) as B. apply Rabs_inv in B. rewrite G0, A0 in Hc.
      assert (0 <= (M * ((c - a) ^ m / INR (fact m)) - g' c) * (s - a)) by (apply Rmult_le_pos; lra). lra.
  - rewrite G0, Rabs_R0, Rminus_diag_eq by auto. rewrite pow_i by lia. unfold Rdiv. lra.
Qed.

Fixpoint taylor (F : nat -> R -> R) (a : R) (p : nat) (s : R) : R :=
  match p with O => F O a | S q => taylor F a q s + (s - a) ^ S q / INR (fact (S q)) * F (S q) a end.
Lemma taylor_derivable F a p s : derivable_pt_lim (taylor F a (S p)) s (taylor (fun k => F (S k)) a p s).
Proof.
  assert (X : forall q, derivable_pt_lim (fun s => (s - a) ^ S q / INR (fact (S q)) * F (S q) a) s ((s - a) ^ q / INR (fact q) * F (S q) a)).
  { intros q.
    assert (X : derivable_pt_lim (fun s => (s - a) ^ S q) s (INR (S q) * (s - a) ^ q * (1 - 0))).
    { apply (derivable_pt_lim_comp (fun s => s - a) (fun y => y ^ S q)).
      - apply (derivable_pt_lim_minus id (fun _ => a)); [apply derivable_pt_lim_id|apply derivable_pt_lim_const].
      - apply (derivable_pt_lim_pow (s - a) (S q)). }
    pose proof (derivable_pt_lim_scal _ (F (S q) a / INR (fact (S q))) _ _ X) as Y.
    eapply derivable_pt_lim_ext; [|eapply dl_eq; [|exact Y]].
    - intros y. unfold mult_real_fct. field. apply INR_fact_neq_0.
    - rewrite fact_simpl, mult_INR. field. split; [apply INR_fact_neq_0|apply not_0_INR; lia]. }
  induction p as [|p IH].
  - pose proof (derivable_pt_lim_plus (fun _ => F O a) _ s _ _ (derivable_pt_lim_const (F O a) s) (X O)) as Y.
    eapply dl_eq; [|exact Y]. cbn. field.
  - pose proof (derivable_pt_lim_plus (taylor F a (S p)) _ s _ _ IH (X (S p))) as Y. exact Y.
Qed.
Theorem taylor_bound a b M p : a <= b -> forall F, (forall k s, (k <= p)%nat -> a <= s <= b -> derivable_pt_lim (F k) s (F (S k) s)) ->
  (forall s, a <= s <= b -> Rabs (F (S p) s) <= M) ->
  forall s, a <= s <= b -> Rabs (F O s - taylor F a p s) <= M * ((s - a) ^ S p / INR (fact (S p))).
Proof.
  intros Hab. induction p as [|p IH]; intros F D B s Hs.
  - apply (grow (fun s => F O s - taylor F a 0 s) (fun s => F 1%nat s - 0) a b M 0); auto.
    + cbn. ring.
    + intros c Hc. apply (derivable_pt_lim_minus (F O) (fun _ => F O a)); [apply D; auto|apply derivable_pt_lim_const].
    + intros c Hc. cbn. replace (F 1%nat c - 0) with (F 1%nat c) by ring. replace (M * (1 / 1)) with M by field. auto.
  - apply (grow (fun s => F O s - taylor F a (S p) s) (fun s => F 1%nat s - taylor (fun k => F (S k)) a p s) a b M (S p)); auto.
    + cbv beta. assert (T : forall q, taylor F a q a = F O a).
      { induction q as [|q IHq]; [reflexivity|]. cbn [taylor]. rewrite IHq, Rminus_diag_eq by auto. rewrite pow_i by lia. unfold Rdiv. ring. }
      rewrite T. ring.
    + intros c Hc. apply (derivable_pt_lim_minus (F O) (taylor F a (S p))); [apply D; auto; lia|apply taylor_derivable].
    + intros c Hc. apply (IH (fun k => F (S k))); auto. intros k y Hk Hy. apply D; auto. lia.
Qed.

(** ** differences of functions *)
Definition dd (h : R) (f : R -> R) (x : R) : R := (f (x + h) - 2 * f x + f (x - h)) / h ^ 2.
Definition dc (h : R) (f : R -> R) (x : R) : R := (f (x + h) - f (x - h)) / (2 * h).
Lemma central_2 h (f : R -> R) (x : R) : h <> 0 -> @apply_stencil RF (@central RF 2 h) f x h = dd h f x.
Proof.
  intros N. unfold apply_stencil, dd, central. cbn -[Rmult Rplus Rinv Rdiv].
  change (fnat (Pos.to_nat 1)) with (1 + 0)%R.
  replace (x + - (1 + 0) * h)%R with (x - h)%R by ring. replace (x + 0 * h)%R with x by ring.
  replace (x + (1 + 0) * h)%R with (x + h)%R by ring. field. exact N.
Qed.
Lemma central_1 h (f : R -> R) (x : R) : h <> 0 -> @apply_stencil RF (@central RF 1 h) f x h = dc h f x.
Proof.
  intros N. unfold apply_stencil, dc, central. cbn -[Rmult Rplus Rinv Rdiv].
  change (fnat (Pos.to_nat 1)) with (1 + 0)%R.
  replace (x + - (1 + 0) * h)%R with (x - h)%R by ring.
  replace (x + (1 + 0) * h)%R with (x + h)%R by ring. field. exact N.
Qed.

Section Differences.
  Variables (h : R) (F : nat -> R -> R).
  Hypothesis Hh : 0 < h.
  Lemma dd_consistent B x : (forall k y, (k < 4)%nat -> derivable_pt_lim (F k) y (F (S k) y)) ->
    (forall y, Rabs (F 4%nat y) <= B) -> Rabs (dd h (F O) x - F 2%nat x) <= B / 3 * h ^ 2.
  Proof.
    intros D HB. rewrite <- central_2 by lra.
    pose proof (stencil_consistent 2 x h B F (@central RF 2 h) ltac:(lra) ltac:(intros; apply D; lia) ltac:(intros; apply HB)
      (stencil_central RF 2 x h ltac:(cbn; lra))) as H.
    replace (B / 3) with (INR 2 / 6 * B) by (cbn; field). exact H.
  Qed.
  Lemma dd_bounded B x : (forall k y, (k < 2)%nat -> derivable_pt_lim (F k) y (F (S k) y)) ->
    (forall y, Rabs (F 2%nat y) <= B) -> Rabs (dd h (F O) x) <= B.
  Proof. intros D HB. rewrite <- central_2 by lra. apply (central_bounded 2 x h B F); auto. Qed.
  Lemma dc_consistent B x : (forall k y, (k < 3)%nat -> derivable_pt_lim (F k) y (F (S k) y)) ->
    (forall y, Rabs (F 3%nat y) <= B) -> Rabs (dc h (F O) x - F 1%nat x) <= B / 6 * h ^ 2.
  Proof.
    intros D HB. rewrite <- central_1 by lra.
    pose proof (stencil_consistent 1 x h B F (@central RF 1 h) ltac:(lra) ltac:(intros; apply D; lia) ltac:(intros; apply HB)
      (stencil_central RF 1 x h ltac:(cbn; lra))) as H.
    replace (B / 6) with (INR 1 / 6 * B) by (cbn; field). exact H.
  Qed.
  Lemma dc_bounded B x : (forall k y, (k < 1)%nat -> derivable_pt_lim (F k) y (F (S k) y)) ->
    (forall y, Rabs (F 1%nat y) <= B) -> Rabs (dc h (F O) x) <= B.
  Proof. intros D HB. rewrite <- central_1 by lra. apply (central_bounded 1 x h B F); auto. Qed.
End Differences.

Lemma dd_family h (F : nat -> R -> R) : (forall k y, derivable_pt_lim (F k) y (F (S k) y)) ->
  forall k y, derivable_pt_lim (dd h (F k)) y (dd h (F (S k)) y).
Proof.
  intros D k y.
  assert (X : forall c, derivable_pt_lim (fun y => F k (y + c)) y (F (S k) (y + c))).
  { intros c. eapply dl_eq; [|apply (derivable_pt_lim_comp (fun y => y + c) (F k) y)].
    - rewrite Rmult_1_r. reflexivity.
    - eapply dl_eq; [|apply (derivable_pt_lim_plus id (fun _ => c)); [apply derivable_pt_lim_id|apply derivable_pt_lim_const]]. ring.
    - apply D. }
  pose proof (derivable_pt_lim_plus _ _ _ _ _ (derivable_pt_lim_minus _ _ _ _ _ (X h) (derivable_pt_lim_scal (F k) 2 _ _ (D k y))) (X (- h))) as Y.
  apply (derivable_pt_lim_scal _ (/ h ^ 2)) in Y.
  eapply derivable_pt_lim_ext; [|eapply dl_eq; [|exact Y]].
  - intros z. unfold mult_real_fct, plus_fct, minus_fct, dd. replace (z + - h) with (z - h) by ring. unfold Rdiv. ring.
  - unfold dd. replace (y + - h) with (y - h) by ring. unfold Rdiv. ring.
Qed.
Lemma iter_r {A} (f : A -> A) k x : Nat.iter (S k) f x = Nat.iter k f (f x).
Proof. induction k as [|k IH]; [reflexivity|]. change (f (Nat.iter (S k) f x) = f (Nat.iter k f (f x))). rewrite IH. reflexivity. Qed.
Lemma dd_iter h : 0 < h -> forall k F B x, (forall k y, derivable_pt_lim (F k) y (F (S k) y)) ->
  (forall y, Rabs (F (2 * k + 2)%nat y) <= B) ->
  Rabs (Nat.iter k (dd h) (F O) x - F (2 * k)%nat x) <= INR k * (B / 3) * h ^ 2.
Proof.
  intros Hh. induction k as [|k IH]; intros F B x D HB.
  - cbn. rewrite Rminus_diag_eq by auto. rewrite Rabs_R0. lra.
  - rewrite iter_r.
    assert (A1 : Rabs (Nat.iter k (dd h) (dd h (F O)) x - dd h (F (2 * k)%nat) x) <= INR k * (B / 3) * h ^ 2).
    { apply (IH (fun k => dd h (F k)) B x (dd_family h F D)). intros y.
      replace (2 * k + 2)%nat with (2 * k + 2 + 0)%nat by lia. apply (dd_bounded h (fun i => F (2 * k + 2 + i)%nat) Hh).
      - intros i z _. replace (2 * k + 2 + S i)%nat with (S (2 * k + 2 + i)) by lia. apply D.
      - intros z. replace (2 * k + 2 + 2)%nat with (2 * S k + 2)%nat by lia. apply HB. }
    assert (A2 : Rabs (dd h (F (2 * k + 0)%nat) x - F (2 * k + 2)%nat x) <= B / 3 * h ^ 2).
    { apply (dd_consistent h (fun i => F (2 * k + i)%nat) Hh).
      - intros i z _. replace (2 * k + S i)%nat with (S (2 * k + i)) by lia. apply D.
      - intros z. replace (2 * k + 4)%nat with (2 * S k + 2)%nat by lia. apply HB. }
    rewrite Nat.add_0_r in A2. replace (2 * k + 2)%nat with (2 * S k)%nat in A2 by lia.
    rewrite S_INR. replace (Nat.iter k (dd h) (dd h (F O)) x - F (2 * S k)%nat x) with
      ((Nat.iter k (dd h) (dd h (F O)) x - dd h (F (2 * k)%nat) x) + (dd h (F (2 * k)%nat) x - F (2 * S k)%nat x)) by ring.
    eapply Rle_trans; [apply Rabs_triang|]. lra.
Qed.

(** ** samples of a periodic function *)
Section Samples.
  Variables (L : R) (n : nat).
  Hypothesis (PL : 0 < L) (Hn : (0 < n)%nat).
  Notation h := (mesh L n).
  Lemma INR_n : 0 < INR n.
  Proof. apply (lt_INR 0). exact Hn. Qed.
  Lemma n_mesh : INR n * h = L.
  Proof. unfold mesh. field. pose proof INR_n. lra. Qed.
  Lemma sample_next (f : R -> R) j : (forall x, f (x + L) = f x) -> (j < n)%nat ->
    f (INR (shift n 1 j) * h) = f (INR j * h + h).
  Proof.
    intros P Hj. unfold shift. destruct (Nat.eq_dec (S j) n) as [E|N].
    - replace (Z.of_nat j + 1)%Z with (Z.of_nat n) by lia. rewrite Z.mod_same by lia.
      change (INR (Z.to_nat 0)) with 0. replace (INR j * h + h) with (0 * h + INR n * h) by (rewrite <- E, S_INR; ring).
      rewrite n_mesh, P. reflexivity.
    - rewrite Z.mod_small by lia. replace (Z.to_nat (Z.of_nat j + 1)) with (S j) by lia. rewrite S_INR. f_equal. ring.
  Qed.
  Lemma sample_prev (f : R -> R) j : (forall x, f (x + L) = f x) -> (j < n)%nat ->
    f (INR (shift n (-1) j) * h) = f (INR j * h - h).
  Proof.
    intros P Hj. unfold shift. destruct j as [|j].
    - replace (Z.of_nat 0 + -1)%Z with (Z.of_nat (n - 1) + (-1) * Z.of_nat n)%Z by lia.
      rewrite Z.mod_add, Z.mod_small by lia. rewrite Nat2Z.id, minus_INR by lia.
      rewrite <- (P (INR 0 * h - h)). f_equal. change (INR 0) with 0. change (INR 1) with 1. pose proof n_mesh. lra.
    - replace (Z.of_nat (S j) + -1)%Z with (Z.of_nat j) by lia. rewrite Z.mod_small, Nat2Z.id by lia.
      rewrite S_INR. f_equal. ring.
  Qed.
  Lemma sample_d1 (f : R -> R) j : (forall x, f (x + L) = f x) -> (j < n)%nat ->
    d1 n h (fun j => f (INR j * h)) j = dc h f (INR j * h).
  Proof. intros P Hj. unfold d1, dc. rewrite sample_next, sample_prev; auto. Qed.
  Lemma sample_d2 (f : R -> R) j : (forall x, f (x + L) = f x) -> (j < n)%nat ->
    d2 n h (fun j => f (INR j * h)) j = dd h f (INR j * h).
  Proof. intros P Hj. unfold d2, dd. rewrite sample_next, sample_prev; auto. Qed.
  Lemma d1_ext U V j : (forall i, (i < n)%nat -> U i = V i) -> (j < n)%nat -> d1 n h U j = d1 n h V j.
  Proof. intros E Hj. unfold d1. rewrite !E by (auto using shift_lt). reflexivity. Qed.
  Lemma d2_ext U V j : (forall i, (i < n)%nat -> U i = V i) -> (j < n)%nat -> d2 n h U j = d2 n h V j.
  Proof. intros E Hj. unfold d2. rewrite !E by (auto using shift_lt). reflexivity. Qed.
  Lemma sample_iter k : forall (f : R -> R), (forall x, f (x + L) = f x) -> forall j, (j < n)%nat ->
    Nat.iter k (d2 n h) (fun j => f (INR j * h)) j = Nat.iter k (dd h) f (INR j * h).
  Proof.
    induction k as [|k IH]; intros f P j Hj; [reflexivity|].
    change (d2 n h (Nat.iter k (d2 n h) (fun j => f (INR j * h))) j = dd h (Nat.iter k (dd h) f) (INR j * h)).
    rewrite (d2_ext _ (fun j => Nat.iter k (dd h) f (INR j * h))); auto.
    apply sample_d2; auto. clear - P. intros x. revert x. induction k as [|k IH]; intros x; [apply P|].
    change (dd h (Nat.iter k (dd h) f) (x + L) = dd h (Nat.iter k (dd h) f) x). unfold dd at 1 3.
    replace (x + L + h) with (x + h + L) by ring. replace (x + L - h) with (x - h + L) by ring. rewrite !IH. reflexivity.
  Qed.
End Samples.

(** ** Burgers' equation *)
Lemma convex3 a b c x y z B : 0 <= a -> 0 <= b -> 0 <= c -> a + b + c = 1 -> Rabs x <= B -> Rabs y <= B -> Rabs z <= B ->
  Rabs (a * x + b * y + c * z) <= B.
Proof.
  intros A0 B0 C0 S X Y Z. apply Rabs_inv in X, Y, Z. apply Rabs_le. nra.
Qed.

Section Burgers.
  Variables (L kappa t0 t1 : R) (u : nat -> R -> R -> R) (ut utt : R -> R -> R) (M0 M : R).
  Hypothesis PL : 0 < L.
  Hypothesis BS : burgers_solution L kappa t0 t1 u ut utt.
  Hypothesis BM : forall t x, t0 <= t <= t1 ->
    Rabs (u O t x) <= M /\ Rabs (u 1%nat t x) <= M /\ Rabs (u 3%nat t x) <= M /\ Rabs (u 4%nat t x) <= M /\ Rabs (utt t x) <= M.
  Variables (n : nat) (tau : R).
  Notation h := (mesh L n).
  Hypothesis Hn : (0 < n)%nat.
  Hypothesis (C1 : 2 * kappa * tau <= h ^ 2) (C2 : M0 * h <= 2 * kappa) (P0 : 0 <= M0).

  Lemma h_pos : 0 < h.
  Proof. unfold mesh. apply Rdiv_lt_0_compat; auto. apply (lt_INR 0); auto. Qed.
  Lemma kappa_pos : 0 <= kappa.
  Proof. pose proof h_pos. nra. Qed.

  Definition truncation : R := (M * M / 6 + kappa * M / 3) * h ^ 2 + M / 2 * tau.

  Lemma burgers_space t x : t0 <= t <= t1 ->
    Rabs (ut t x - (- u O t x * dc h (u O t) x + kappa * dd h (u O t) x)) <= (M * M / 6 + kappa * M / 3) * h ^ 2.
  Proof.
    intros Ht. pose proof h_pos as Hh. pose proof kappa_pos as Hk.
    assert (A1 := dc_consistent h (fun k => u k t) Hh M x ltac:(intros; apply (bs_space _ _ _ _ _ _ _ BS); auto; lia)
      ltac:(intros y; apply (BM t y Ht))).
    assert (A2 := dd_consistent h (fun k => u k t) Hh M x ltac:(intros; apply (bs_space _ _ _ _ _ _ _ BS); auto; lia)
      ltac:(intros y; apply (BM t y Ht))).
    cbv beta in A1, A2. rewrite (bs_equation _ _ _ _ _ _ _ BS t x Ht).
    replace (- u O t x * u 1%nat t x + kappa * u 2%nat t x - (- u O t x * dc h (u O t) x + kappa * dd h (u O t) x)) with
      (u O t x * (dc h (u O t) x - u 1%nat t x) + - (kappa * (dd h (u O t) x - u 2%nat t x))) by ring.
    eapply Rle_trans; [apply Rabs_triang|]. rewrite Rabs_Ropp, !Rabs_mult, (Rabs_pos_eq kappa Hk).
    destruct (BM t x Ht) as (B0 & _).
    assert (Rabs (u O t x) * Rabs (dc h (u O t) x - u 1%nat t x) <= M * (M / 6 * h ^ 2)) by (apply Rmult_le_compat; auto using Rabs_pos).
    assert (kappa * Rabs (dd h (u O t) x - u 2%nat t x) <= kappa * (M / 3 * h ^ 2)) by (apply Rmult_le_compat_l; auto).
    lra.
  Qed.
  Lemma burgers_time t t' x : t0 <= t -> t <= t' -> t' <= t1 ->
    Rabs (u O t' x - (u O t x + (t' - t) * ut t x)) <= M / 2 * (t' - t) ^ 2.
  Proof.
    intros H1 H2 H3.
    pose proof (taylor_bound t t' M 1 H2 (fun k s => match k with O => u O s x | 1%nat => ut s x | _ => utt s x end)) as T.
    cbv beta iota in T. specialize (fun A B => T A B t' (conj H2 (Rle_refl t'))).
    replace (u O t x + (t' - t) * ut t x) with (taylor (fun k s => match k with O => u O s x | 1%nat => ut s x | _ => utt s x end) t 1 t')
      by (cbn; field).
    replace (M / 2 * (t' - t) ^ 2) with (M * ((t' - t) ^ 2 / INR (fact 2))) by (cbn; field).
    apply T.
    - intros [|[|k]] s Hk Hs; [apply (bs_time _ _ _ _ _ _ _ BS)|apply (bs_time2 _ _ _ _ _ _ _ BS)|lia]; lra.
    - intros s Hs. apply (BM s x). lra.
  Qed.

  (** one step on the arrays *)
  Lemma burgers_update (U : nat -> R) t t' E j : t0 <= t -> t <= t' -> t' <= t1 -> t' - t <= tau -> (j < n)%nat ->
    (forall i, (i < n)%nat -> Rabs (U i) <= M0) ->
    (forall i, (i < n)%nat -> Rabs (U i - u O t (INR i * h)) <= E) ->
    let V := U j + (t' - t) * (- U j * d1 n h U j + kappa * d2 n h U j) in
    Rabs V <= M0 /\ Rabs (V - u O t' (INR j * h)) <= (1 + M * (t' - t)) * E + (t' - t) * truncation.
  Proof.
    intros H1 H2 H3 H4 Hj HU HE V. pose proof h_pos as Hh. pose proof kappa_pos as Hk.
    set (dt := t' - t) in *. assert (Hdt : 0 <= dt) by (unfold dt; lra).
    assert (Ht : t0 <= t <= t1) by lra.
    pose proof (shift_lt n 1 j Hj) as Jp. pose proof (shift_lt n (-1) j Hj) as Jm.
    set (lam := kappa * dt / h ^ 2). set (mu := dt / (2 * h)).
    assert (Lam : 0 <= 2 * lam <= 1).
    { unfold lam. split.
      - apply Rmult_le_pos; [lra|]. apply Rmult_le_pos; [apply Rmult_le_pos; auto|]. left. apply Rinv_0_lt_compat. nra.
      - replace (2 * (kappa * dt / h ^ 2)) with ((2 * kappa * dt) / h ^ 2) by (field; lra).
        apply (Rmult_le_reg_r (h ^ 2)); [nra|]. unfold Rdiv. rewrite Rmult_assoc, Rinv_l by nra. nra. }
    assert (Mu : forall y, Rabs y <= M0 -> Rabs (y * mu) <= lam).
    { intros y Hy. rewrite Rabs_mult. unfold mu, lam. rewrite (Rabs_pos_eq (dt / (2 * h))).
      2: { apply Rmult_le_pos; auto. left. apply Rinv_0_lt_compat. lra. }
      replace (kappa * dt / h ^ 2) with ((2 * kappa) / h * (dt / (2 * h))) by (field; lra).
      apply Rmult_le_compat_r; [apply Rmult_le_pos; auto; left; apply Rinv_0_lt_compat; lra|].
      eapply Rle_trans; [exact Hy|]. apply (Rmult_le_reg_r h); auto. unfold Rdiv. rewrite Rmult_assoc, Rinv_l by lra. lra. }
    pose proof (Mu (U j) (HU j Hj)) as Mj. apply Rabs_inv in Mj.
    split.
    - replace V with ((lam - U j * mu) * U (shift n 1 j) + (lam + U j * mu) * U (shift n (-1) j) + (1 - 2 * lam) * U j)
        by (unfold V, d1, d2, lam, mu; field; lra).
      apply convex3; try lra; apply HU; auto.
    - set (v := fun i => u O t (INR i * h)) in *. 
      assert (P : forall y, u O t (y + L) = u O t y) by (intros; apply (bs_period _ _ _ _ _ _ _ BS); auto).
      pose proof (burgers_space t (INR j * h) Ht) as T.
      rewrite <- (sample_d1 L n Hn (u O t) j P Hj), <- (sample_d2 L n Hn (u O t) j P Hj) in T. fold v in T.
      change (u O t (INR j * h)) with (v j) in T.
      assert (D1 : Rabs (d1 n h v j) <= M).
      { unfold v. rewrite (sample_d1 L n Hn (u O t) j P Hj). apply (dc_bounded h (fun k => u k t) Hh).
        - intros; apply (bs_space _ _ _ _ _ _ _ BS); auto; lia.
        - intros y. apply (BM t y Ht). }
      pose proof (burgers_time t t' (INR j * h) H1 H2 H3) as R2. fold dt in R2.
      change (u O t (INR j * h)) with (v j) in R2.
      set (w := ut t (INR j * h)) in *. set (v' := u O t' (INR j * h)) in *.
      set (T' := w - (- v j * d1 n h v j + kappa * d2 n h v j)) in *.
      set (r := v' - (v j + dt * w)) in *.
      replace (V - v') with (((lam - U j * mu) * (U (shift n 1 j) - v (shift n 1 j)) + (lam + U j * mu) * (U (shift n (-1) j) - v (shift n (-1) j)) + (1 - 2 * lam) * (U j - v j))
         + - (dt * d1 n h v j * (U j - v j)) + - (dt * T') + - r).
      2: { unfold r, T', V, d1, d2, lam, mu. field. lra. }
      assert (X1 : Rabs ((lam - U j * mu) * (U (shift n 1 j) - v (shift n 1 j)) + (lam + U j * mu) * (U (shift n (-1) j) - v (shift n (-1) j)) + (1 - 2 * lam) * (U j - v j)) <= E).
      { apply convex3; try lra; apply HE; auto. }
      assert (X2 : Rabs (dt * d1 n h v j * (U j - v j)) <= dt * M * E).
      { rewrite !Rabs_mult, (Rabs_pos_eq dt Hdt). rewrite !Rmult_assoc. apply Rmult_le_compat_l; auto.
        apply Rmult_le_compat; auto using Rabs_pos. apply HE; auto. }
      assert (X3 : Rabs (dt * T') <= dt * ((M * M / 6 + kappa * M / 3) * h ^ 2)).
      { rewrite Rabs_mult, (Rabs_pos_eq dt Hdt). apply Rmult_le_compat_l; auto. }
      assert (MP : 0 <= M) by (eapply Rle_trans; [apply Rabs_pos|apply (BM t 0 Ht)]).
      assert (X4 : M / 2 * dt ^ 2 <= dt * (M / 2 * tau)).
      { replace (M / 2 * dt ^ 2) with (dt * (M / 2 * dt)) by ring. apply Rmult_le_compat_l; auto. apply Rmult_le_compat_l; lra. }
      eapply Rle_trans; [apply Rabs_triang|]. rewrite Rabs_Ropp.
      eapply Rle_trans; [apply Rplus_le_compat_r, Rabs_triang|]. rewrite Rabs_Ropp.
      eapply Rle_trans; [apply Rplus_le_compat_r, Rplus_le_compat_r, Rabs_triang|]. rewrite Rabs_Ropp.
      unfold truncation. lra.
  Qed.
End Burgers.

Theorem burgers_forecast (L kappa t0 t1 M0 : R) u ut utt : 0 < L -> burgers_solution L kappa t0 t1 u ut utt ->
  (forall x, Rabs (u O t0 x) <= M0) ->
  exists C, forall n enum x ord rpow g caches attr tau w state sv,
    line_class L kappa n enum ord g caches attr -> runs t0 t1 tau w -> sampled L n (u O t0) state ->
    0 <= tau -> 2 * kappa * tau <= mesh L n ^ 2 -> M0 * mesh L n <= 2 * kappa -> sv <> SOther ->
    exists traj, forecast Req_EM_T Rminus (@euler RF (list nat)) (generated_trend enum x ord rpow ["x"%string] g caches attr burgers) w state sv = Ok traj /\
      forall t, In t w -> is_saved w sv t -> exists s, dget Req_EM_T t traj = Some s /\ within L n (C * (tau + mesh L n ^ 2)) (u O t) s.
Proof.
  intros PL BS B0. destruct (bs_bounded _ _ _ _ _ _ _ BS) as (M & BM).
  exists ((t1 - t0) * exp (M * (t1 - t0)) * (M * M / 6 + kappa * M / 3 + M / 2)).
  intros n enum x ord rpow g caches attr tau w state sv LC (W0 & W1 & W2) Hs Ht C1 C2 Hsv.
  pose proof (n_pos L kappa n enum ord g caches attr LC) as Hn.
  assert (P0 : 0 <= M0) by (eapply Rle_trans; [apply Rabs_pos|apply (B0 0)]).
  assert (T01 : t0 <= t1) by (apply W2; eapply nth_error_In; eauto).
  pose proof (h_pos L PL n Hn) as Hh. pose proof (kappa_pos L kappa M0 PL n Hn C2 P0) as Hk.
  assert (MP : 0 <= M) by (eapply Rle_trans; [apply Rabs_pos|apply (BM t0 0); lra]).
  set (Q := truncation L kappa M n tau).
  assert (HQ : 0 <= Q <= (M * M / 6 + kappa * M / 3 + M / 2) * (tau + mesh L n ^ 2)).
  { unfold Q, truncation. assert (0 <= M * M / 6 + kappa * M / 3) by nra. assert (0 <= mesh L n ^ 2) by nra.
    assert (0 <= (M * M / 6 + kappa * M / 3) * mesh L n ^ 2) by nra. assert (0 <= M / 2 * tau) by nra.
    split; [lra|]. assert (0 <= (M * M / 6 + kappa * M / 3) * tau) by nra. assert (0 <= M / 2 * mesh L n ^ 2) by nra. lra. }
  destruct (forecast_keeps (@euler RF (list nat)) (generated_trend enum x ord rpow ["x"%string] g caches attr burgers)
    (fun t s => t0 <= t <= t1 /\ (forall j, (j < n)%nat -> Rabs (at0 s j) <= M0) /\
       (forall j, (j < n)%nat -> Rabs (at0 s j - u O t (INR j * mesh L n)) <= (t - t0) * exp (M * (t - t0)) * Q)) w state sv t0 Hsv W0)
    as (traj & E & H).
  - split; [lra|]. split; intros j Hj; unfold at0; rewrite Hs by auto.
    + apply B0.
    + rewrite Rminus_diag_eq by auto. rewrite Rabs_R0. rewrite Rminus_diag_eq by auto. lra.
  - intros k t t' s Hk1 Hk2 ([T1 T2] & HU & HE).
    destruct (W1 k t t' Hk1 Hk2) as [S1 S2]. pose proof (W2 t' (nth_error_In _ _ Hk2)) as S3.
    destruct (burgers_trend L kappa n enum x ord rpow g caches attr LC PL t s) as (r & Er & Hr).
    unfold euler. rewrite Er. cbn [bind]. eexists. split; [reflexivity|]. split; [lra|].
    assert (X : forall j, (j < n)%nat -> at0 (@vadd RF (list nat) s (@vscale RF (list nat) (t' - t)%R r)) j =
       at0 s j + (t' - t) * (- at0 s j * d1 n (mesh L n) (at0 s) j + kappa * d2 n (mesh L n) (at0 s) j)).
    { intros j Hj. rewrite <- Hr by auto. reflexivity. }
    pose proof (fun j Hj => burgers_update L kappa t0 t1 u ut utt M0 M PL BS BM n tau Hn C1 C2 P0 (at0 s) t t' _ j T1 S1 S3 ltac:(lra) Hj HU HE) as Y.
    cbv zeta in Y. split; intros j Hj; rewrite X by auto; destruct (Y j Hj) as [Y1 Y2].
    + exact Y1.
    + eapply Rle_trans; [exact Y2|]. fold Q.
      assert (A1 : 1 + M * (t' - t) <= exp (M * (t' - t))) by apply exp_ineq1_le.
      assert (A2 : exp (M * (t' - t0)) = exp (M * (t' - t)) * exp (M * (t - t0))) by (rewrite <- exp_plus; f_equal; ring).
      assert (A3 : 1 <= exp (M * (t - t0))).
      { rewrite <- exp_0. destruct (Rle_lt_or_eq_dec 0 (M * (t - t0)) ltac:(nra)) as [Lt|Eq]; [left; apply exp_increasing; auto|rewrite Eq; right; f_equal; auto]. }
      assert (A4 : 0 <= M * (t' - t)) by nra.
      rewrite A2. set (e := exp (M * (t - t0))) in *. set (f := exp (M * (t' - t))) in *.
      assert (F1 : (1 + M * (t' - t)) * ((t - t0) * e * Q) <= f * ((t - t0) * e * Q)).
      { apply Rmult_le_compat_r; auto. apply Rmult_le_pos; [|lra]. apply Rmult_le_pos; lra. }
      assert (F2 : 1 * Q <= (f * e) * Q) by (apply Rmult_le_compat_r; [lra|nra]).
      assert (F3 : (t' - t) * (1 * Q) <= (t' - t) * ((f * e) * Q)) by (apply Rmult_le_compat_l; lra).
      lra.
  - exists traj. split; [exact E|]. intros t Ht1 Ht2. destruct (H t Ht1 Ht2) as (s & G & [T1 T2] & _ & HE).
    exists s. split; [exact G|]. intros j Hj. eapply Rle_trans; [apply HE; auto|].
    assert (A : exp (M * (t - t0)) <= exp (M * (t1 - t0))).
    { destruct (Rle_lt_or_eq_dec (M * (t - t0)) (M * (t1 - t0)) ltac:(nra)) as [Lt|Eq]; [left; apply exp_increasing; auto|rewrite Eq; lra]. }
    pose proof (exp_pos (M * (t - t0))).
    rewrite Rmult_assoc with (r2 := (M * M / 6 + kappa * M / 3 + M / 2)).
    apply Rmult_le_compat; try lra.
    + apply Rmult_le_pos; lra.
    + apply Rmult_le_compat; lra.
Qed.

(** ** the diffusion *)
Lemma Ok_inj {A} (x y : A) : Ok x = Ok y -> x = y.
Proof. intros E. injection E. auto. Qed.
Section Linear.
  Variables (kappa : R) (n : nat) (h : R).
  Definition op (U : nat -> R) (j : nat) : R := kappa * d2 n h U j.
  Lemma op_linear : @linear RF nat nat op.
  Proof.
    split; intros; apply functional_extensionality; intros j; unfold op, d2, vadd, vscale; cbn; unfold Rdiv; ring.
  Qed.
  Lemma op_ext U V j : (forall i, (i < n)%nat -> U i = V i) -> (j < n)%nat -> op U j = op V j.
  Proof. intros E Hj. unfold op, d2. rewrite !E by (auto using shift_lt). reflexivity. Qed.

  Lemma step_agrees s (trend : @trendT RF (list nat)) :
    (forall t state, exists r, trend t state = Ok r /\ forall j, (j < n)%nat -> at0 r j = op (at0 state) j) ->
    forall t state dt, exists r, onestep_fun s trend t state dt = Ok r /\
      forall j, (j < n)%nat -> at0 r j = @exp_taylor RF nat op dt (onestep_order s) (at0 state) j.
  Proof.
    intros T t state dt.
    assert (C10 := step_linear_exp RF s op t (at0 state) dt op_linear).
    assert (A0 : forall (a b : list nat -> R) (c : R) j, at0 (@vadd RF (list nat) a (@vscale RF (list nat) c b)) j = at0 a j + c * at0 b j) by reflexivity.
    assert (A1 : forall (a b : nat -> R) (c : R) j, @vadd RF nat a (@vscale RF nat c b) j = a j + c * b j) by reflexivity.
    destruct s; cbn [onestep_fun onestep_order] in *.
    - unfold euler in *. destruct (T t state) as (r & E & H). rewrite E. cbn [bind pure] in *. eexists. split; [reflexivity|].
      intros j Hj. apply Ok_inj in C10. rewrite <- C10. rewrite A0, A1, H by auto. reflexivity.
    - unfold rk2 in *. destruct (T t state) as (k1 & E1 & H1). rewrite E1. cbn [bind pure] in *.
      match goal with |- context[trend ?a ?b] => destruct (T a b) as (k2 & E2 & H2); rewrite E2 end. cbn [bind] in *.
      eexists. split; [reflexivity|]. intros j Hj. apply Ok_inj in C10. rewrite <- C10.
      rewrite A0, A1, H2 by auto. do 2 f_equal. apply op_ext; auto. intros i Hi. rewrite A0, A1, H1 by auto. reflexivity.
    - unfold rk4 in *. destruct (T t state) as (k1 & E1 & H1). rewrite E1. cbn [bind pure] in *.
      match goal with |- context[trend ?a ?b] => destruct (T a b) as (k2 & E2 & H2); rewrite E2 end. cbn [bind] in *.
      match goal with |- context[trend ?a ?b] => destruct (T a b) as (k3 & E3 & H3); rewrite E3 end. cbn [bind] in *.
      match goal with |- context[trend ?a ?b] => destruct (T a b) as (k4 & E4 & H4); rewrite E4 end. cbn [bind] in *.
      eexists. split; [reflexivity|]. intros j Hj. apply Ok_inj in C10. rewrite <- C10.
      assert (B2 : forall i, (i < n)%nat -> at0 k2 i = op (@vadd RF nat (at0 state) (@vscale RF nat (@fmul RF dt half) (op (at0 state)))) i).
      { intros i Hi. rewrite H2 by auto. apply op_ext; auto. intros i' Hi'. rewrite A0, A1, H1 by auto. reflexivity. }
      assert (B3 : forall i, (i < n)%nat -> at0 k3 i = op (@vadd RF nat (at0 state) (@vscale RF nat (@fmul RF dt half)
          (op (@vadd RF nat (at0 state) (@vscale RF nat (@fmul RF dt half) (op (at0 state))))))) i).
      { intros i Hi. rewrite H3 by auto. apply op_ext; auto. intros i' Hi'. rewrite A0, A1, B2 by auto. reflexivity. }
      assert (B4 : forall i, (i < n)%nat -> at0 k4 i = op (@vadd RF nat (at0 state) (@vscale RF nat dt
          (op (@vadd RF nat (at0 state) (@vscale RF nat (@fmul RF dt half)
          (op (@vadd RF nat (at0 state) (@vscale RF nat (@fmul RF dt half) (op (at0 state))))))))) ) i).
      { intros i Hi. rewrite H4 by auto. apply op_ext; auto. intros i' Hi'. rewrite A0, A1, B3 by auto. reflexivity. }
      rewrite A0, A1. f_equal. f_equal.
      change (at0 k1 j + (@fnat RF 2 * at0 k2 j) + (@fnat RF 2 * at0 k3 j) + at0 k4 j =
        op (at0 state) j + (@fnat RF 2 * op (@vadd RF nat (at0 state) (@vscale RF nat (@fmul RF dt half) (op (at0 state)))) j)
        + (@fnat RF 2 * op (@vadd RF nat (at0 state) (@vscale RF nat (@fmul RF dt half)
          (op (@vadd RF nat (at0 state) (@vscale RF nat (@fmul RF dt half) (op (at0 state))))))) j)
        + op (@vadd RF nat (at0 state) (@vscale RF nat dt
          (op (@vadd RF nat (at0 state) (@vscale RF nat (@fmul RF dt half)
          (op (@vadd RF nat (at0 state) (@vscale RF nat (@fmul RF dt half) (op (at0 state))))))))) ) j).
      rewrite H1, B2, B3, B4 by auto. reflexivity.
  Qed.
End Linear.

(** a step of any of the schemes is an average of Euler steps *)
Section Contraction.
  Variables (kappa : R) (n : nat) (h dt : R).
  Hypothesis (Hh : 0 < h) (Hk : 0 <= kappa) (Hdt : 0 <= dt) (Stable : 2 * kappa * dt <= h ^ 2).
  Notation op := (op kappa n h).
  Definition eu (V : nat -> R) : nat -> R := fun j => V j + dt * op V j.
  Lemma eu_bounded B V : (forall j, (j < n)%nat -> Rabs (V j) <= B) -> forall j, (j < n)%nat -> Rabs (eu V j) <= B.
  Proof.
    intros HV j Hj. set (lam := kappa * dt / h ^ 2).
    assert (Lam : 0 <= 2 * lam <= 1).
    { unfold lam. split.
      - apply Rmult_le_pos; [lra|]. apply Rmult_le_pos; [apply Rmult_le_pos; auto|]. left. apply Rinv_0_lt_compat. nra.
      - replace (2 * (kappa * dt / h ^ 2)) with ((2 * kappa * dt) / h ^ 2) by (field; lra).
        apply (Rmult_le_reg_r (h ^ 2)); [nra|]. unfold Rdiv. rewrite Rmult_assoc, Rinv_l by nra. nra. }
    replace (eu V j) with (lam * V (shift n 1 j) + lam * V (shift n (-1) j) + (1 - 2 * lam) * V j)
      by (unfold eu, LineConv.op, d2, lam; field; lra).
    apply convex3; try lra; apply HV; auto using shift_lt.
  Qed.
  Lemma op_comb (a b : R) (V W : nat -> R) : op (fun j => a * V j + b * W j) = fun j => a * op V j + b * op W j.
  Proof. apply functional_extensionality. intros j. unfold LineConv.op, d2, Rdiv. ring. Qed.
  Lemma eu_comb (a b : R) (V W : nat -> R) : eu (fun j => a * V j + b * W j) = fun j => a * eu V j + b * eu W j.
  Proof. apply functional_extensionality. intros j. unfold eu. rewrite op_comb. ring. Qed.
  Lemma eu_op V : eu (op V) = op (eu V).
  Proof.
    apply functional_extensionality. intros j. unfold eu.
    replace (fun j => V j + dt * op V j) with (fun j => 1 * V j + dt * op V j) by (apply functional_extensionality; intros; ring).
    rewrite op_comb. ring.
  Qed.
  Lemma eu_1 V j : eu V j = V j + dt * op V j. Proof. reflexivity. Qed.
  Lemma eu_2 V j : eu (eu V) j = V j + 2 * dt * op V j + dt ^ 2 * op (op V) j.
  Proof. rewrite (eu_1 (eu V)). rewrite <- eu_op, !eu_1. ring. Qed.
  Lemma eu_3 V j : eu (eu (eu V)) j = V j + 3 * dt * op V j + 3 * dt ^ 2 * op (op V) j + dt ^ 3 * op (op (op V)) j.
  Proof. rewrite (eu_1 (eu (eu V))). rewrite <- eu_op, <- eu_op, !eu_2. ring. Qed.
  Lemma eu_4 V j : eu (eu (eu (eu V))) j = V j + 4 * dt * op V j + 6 * dt ^ 2 * op (op V) j + 4 * dt ^ 3 * op (op (op V)) j + dt ^ 4 * op (op (op (op V))) j.
  Proof. rewrite (eu_1 (eu (eu (eu V)))). rewrite <- !eu_op, !eu_3. ring. Qed.

  Definition averaged s (V : nat -> R) (j : nat) : R :=
    match s with
    | SEuler => eu V j
    | SRk2 => (V j + eu (eu V) j) / 2
    | SRk4 => 3 / 8 * V j + 1 / 3 * eu V j + 1 / 4 * eu (eu V) j + 1 / 24 * eu (eu (eu (eu V))) j
    end.
  Lemma exp_averaged s V j : @exp_taylor RF nat op dt (onestep_order s) V j = averaged s V j.
  Proof.
    destruct s; unfold averaged; rewrite ?eu_4, ?eu_2, ?eu_1; cbn; field.
  Qed.
  Lemma step_bounded s B V : (forall j, (j < n)%nat -> Rabs (V j) <= B) ->
    forall j, (j < n)%nat -> Rabs (@exp_taylor RF nat op dt (onestep_order s) V j) <= B.
  Proof.
    intros HV j Hj. rewrite exp_averaged.
    pose proof (eu_bounded B V HV) as H1. pose proof (eu_bounded B _ H1) as H2.
    pose proof (eu_bounded B _ H2) as H3. pose proof (eu_bounded B _ H3) as H4.
    specialize (HV j Hj). specialize (H1 j Hj). specialize (H2 j Hj). specialize (H4 j Hj).
    apply Rabs_inv in HV, H1, H2, H4. apply Rabs_le. unfold averaged. destruct s; lra.
  Qed.
  Lemma exp_sub p V W j : @exp_taylor RF nat op dt p V j - @exp_taylor RF nat op dt p W j = @exp_taylor RF nat op dt p (fun i => V i - W i) j.
  Proof.
    assert (It : forall k, Nat.iter k op (fun i => V i - W i) = fun i => Nat.iter k op V i - Nat.iter k op W i).
    { induction k as [|k IH]; [reflexivity|].
      change (op (Nat.iter k op (fun i => V i - W i)) = fun i => op (Nat.iter k op V) i - op (Nat.iter k op W) i).
      rewrite IH. replace (fun i => Nat.iter k op V i - Nat.iter k op W i) with (fun i => 1 * Nat.iter k op V i + (-1) * Nat.iter k op W i)
        by (apply functional_extensionality; intros; ring).
      rewrite op_comb. apply functional_extensionality; intros; ring. }
    induction p as [|p IH]; [reflexivity|].
    change (@exp_taylor RF nat op dt p V j + @fdiv RF (@fpow RF dt (S p)) (@ffact RF (S p)) * Nat.iter (S p) op V j
      - (@exp_taylor RF nat op dt p W j + @fdiv RF (@fpow RF dt (S p)) (@ffact RF (S p)) * Nat.iter (S p) op W j)
      = @exp_taylor RF nat op dt p (fun i => V i - W i) j + @fdiv RF (@fpow RF dt (S p)) (@ffact RF (S p)) * Nat.iter (S p) op (fun i => V i - W i) j).
    rewrite <- IH, It. ring.
  Qed.
End Contraction.

Section Diffusion.
  Variables (L kappa t0 t1 : R) (u : nat -> R -> R -> R).
  Hypothesis PL : 0 < L.
  Hypothesis DS : diffusion_solution L kappa t0 t1 u.
  Hypothesis Hk : 0 <= kappa.

  Lemma diffusion_space p : exists C, 0 <= C /\ forall n t dt j, (0 < n)%nat -> (j < n)%nat -> t0 <= t <= t1 -> 0 <= dt <= t1 - t0 ->
    Rabs (@exp_taylor RF nat (op kappa n (mesh L n)) dt p (fun i => u O t (INR i * mesh L n)) j -
          taylor (fun k s => kappa ^ k * u (2 * k)%nat s (INR j * mesh L n)) t p (t + dt)) <= dt * C * mesh L n ^ 2.
  Proof.
    induction p as [|p (C & C0 & IH)].
    - exists 0. split; [lra|]. intros n t dt j Hn Hj Ht Hdt. cbn. rewrite Rmult_1_l, Rminus_diag_eq by auto. rewrite Rabs_R0. lra.
    - destruct (ds_bounded _ _ _ _ _ DS (2 * S p + 2)) as (B & HB).
      destruct (Rle_lt_dec t0 t1) as [T01|T01].
      2: { exists 0. split; [lra|]. intros; lra. }
      assert (B0 : 0 <= B) by (eapply Rle_trans; [apply Rabs_pos|apply (HB t0 0); lra]).
      set (D := (t1 - t0) ^ p / INR (fact (S p)) * kappa ^ S p * (INR (S p) * (B / 3))).
      assert (D0 : 0 <= D).
      { unfold D. repeat apply Rmult_le_pos; try lra; try apply pow_le; try lra; try apply pos_INR.
        left. apply Rinv_0_lt_compat. apply INR_fact_lt_0. }
      exists (C + D). split; [lra|]. intros n t dt j Hn Hj Ht Hdt. specialize (IH n t dt j Hn Hj Ht Hdt).
      set (h := mesh L n) in *. assert (Hh : 0 < h) by (apply h_pos; auto).
      set (v := fun i => u O t (INR i * h)) in *. set (A := op kappa n h) in *.
      assert (Ek : forall k, Nat.iter k A v j = kappa ^ k * Nat.iter k (dd h) (u O t) (INR j * h)).
      { intros k. transitivity (kappa ^ k * Nat.iter k (d2 n h) v j).
        - unfold A. clear. generalize j. induction k as [|k IH]; intros i; [cbn; ring|].
          change (kappa * d2 n h (Nat.iter k (op kappa n h) v) i = kappa ^ S k * d2 n h (Nat.iter k (d2 n h) v) i).
          replace (Nat.iter k (op kappa n h) v) with (fun i => kappa ^ k * Nat.iter k (d2 n h) v i)
            by (apply functional_extensionality; intros y; symmetry; apply IH).
          generalize (Nat.iter k (d2 n h) v). intros V. cbn [pow]. unfold d2, Rdiv. ring.
        - f_equal. unfold v. apply sample_iter; auto. intros y. apply (ds_period _ _ _ _ _ DS); auto. }
      assert (Con := dd_iter h Hh (S p) (fun k => u k t) B (INR j * h) ltac:(intros k y; apply (ds_space _ _ _ _ _ DS (S k)); auto)
         ltac:(intros y; apply HB; auto)). cbv beta in Con.
      change (@exp_taylor RF nat A dt (S p) v j) with
        (@exp_taylor RF nat A dt p v j + @fdiv RF (@fpow RF dt (S p)) (@ffact RF (S p)) * Nat.iter (S p) A v j).
      cbn [taylor].
      set (c := @fdiv RF (@fpow RF dt (S p)) (@ffact RF (S p))).
      assert (Ec : c = dt ^ S p / INR (fact (S p))).
      { unfold c, ffact. rewrite fnat_INR.
        assert (Ep : forall q, @fpow RF dt q = dt ^ q) by (induction q as [|q IHq]; [reflexivity|]; cbn in *; rewrite IHq; reflexivity).
        rewrite Ep. reflexivity. }
      replace (t + dt - t) with dt by ring. rewrite <- Ec, Ek.
      set (X := @exp_taylor RF nat A dt p v j) in *. set (Y := taylor (fun k s => kappa ^ k * u (2 * k)%nat s (INR j * h)) t p (t + dt)) in *.
      replace (X + c * (kappa ^ S p * Nat.iter (S p) (dd h) (u O t) (INR j * h)) - (Y + c * (kappa ^ S p * u (2 * S p)%nat t (INR j * h)))) with
        ((X - Y) + c * kappa ^ S p * (Nat.iter (S p) (dd h) (u O t) (INR j * h) - u (2 * S p)%nat t (INR j * h))) by ring.
      eapply Rle_trans; [apply Rabs_triang|]. rewrite Rabs_mult.
      assert (Pc : 0 <= c * kappa ^ S p <= dt * ((t1 - t0) ^ p / INR (fact (S p)) * kappa ^ S p)).
      { rewrite Ec. assert (0 < / INR (fact (S p))) by (apply Rinv_0_lt_compat, INR_fact_lt_0).
        assert (0 <= kappa ^ S p) by (apply pow_le; lra). assert (0 <= dt ^ p <= (t1 - t0) ^ p) by (split; [apply pow_le; lra|apply pow_incr; lra]).
        split.
        - unfold Rdiv. repeat apply Rmult_le_pos; try lra; apply pow_le; lra.
        - replace (dt ^ S p / INR (fact (S p)) * kappa ^ S p) with (dt * (dt ^ p / INR (fact (S p)) * kappa ^ S p)) by (cbn [pow]; unfold Rdiv; ring).
          apply Rmult_le_compat_l; [lra|]. apply Rmult_le_compat_r; auto. apply Rmult_le_compat_r; lra. }
      rewrite (Rabs_pos_eq (c * kappa ^ S p)) by lra.
      assert (Z : c * kappa ^ S p * Rabs (Nat.iter (S p) (dd h) (u O t) (INR j * h) - u (2 * S p)%nat t (INR j * h)) <=
        dt * ((t1 - t0) ^ p / INR (fact (S p)) * kappa ^ S p) * (INR (S p) * (B / 3) * h ^ 2)).
      { apply Rmult_le_compat; try lra; auto using Rabs_pos. }
      unfold D. lra.
  Qed.

  Lemma diffusion_time p : exists C, 0 <= C /\ forall t dt x, t0 <= t -> 0 <= dt -> t + dt <= t1 ->
    Rabs (u O (t + dt) x - taylor (fun k s => kappa ^ k * u (2 * k)%nat s x) t p (t + dt)) <= C * dt ^ S p.
  Proof.
    destruct (ds_bounded _ _ _ _ _ DS (2 * S p)) as (B & HB).
    destruct (Rle_lt_dec t0 t1) as [T01|T01].
    2: { exists 0. split; [lra|]. intros; lra. }
    assert (B0 : 0 <= B) by (eapply Rle_trans; [apply Rabs_pos|apply (HB t0 0); lra]).
    assert (K0 : 0 <= kappa ^ S p) by (apply pow_le; auto).
    assert (I0 : 0 < / INR (fact (S p))) by (apply Rinv_0_lt_compat, INR_fact_lt_0).
    exists (kappa ^ S p * B / INR (fact (S p))). split.
    { apply Rmult_le_pos; [apply Rmult_le_pos; lra|lra]. }
    intros t dt x H1 H2 H3.
    pose proof (taylor_bound t (t + dt) (kappa ^ S p * B) p ltac:(lra) (fun k s => kappa ^ k * u (2 * k)%nat s x)) as T. cbv beta in T.
    replace (kappa ^ S p * B / INR (fact (S p)) * dt ^ S p) with (kappa ^ S p * B * ((t + dt - t) ^ S p / INR (fact (S p))))
      by (replace (t + dt - t) with dt by ring; unfold Rdiv; ring).
    rewrite <- (Rmult_1_l (u O (t + dt) x)). apply (fun A B => T A B (t + dt)); [| |lra].
    - intros k s Hp Hs. replace (2 * S k)%nat with (S (S (2 * k))) by lia.
      pose proof (derivable_pt_lim_scal _ (kappa ^ k) _ _ (ds_equation _ _ _ _ _ DS (2 * k)%nat s x ltac:(lra))) as D.
      eapply derivable_pt_lim_ext; [|eapply dl_eq; [|exact D]]; [intros; reflexivity|cbn [pow]; ring].
    - intros s Hs. rewrite Rabs_mult, (Rabs_pos_eq _ K0). apply Rmult_le_compat_l; auto. apply HB. lra.
  Qed.

  Theorem diffusion_forecast s : exists C, forall n enum x ord rpow g caches attr tau w state sv,
    line_class L kappa n enum ord g caches attr -> runs t0 t1 tau w -> sampled L n (u O t0) state ->
    0 <= tau -> 2 * kappa * tau <= mesh L n ^ 2 -> sv <> SOther ->
    exists traj, forecast Req_EM_T Rminus (@onestep_fun RF (list nat) s) (generated_trend enum x ord rpow ["x"%string] g caches attr diffusion) w state sv = Ok traj /\
      forall t, In t w -> is_saved w sv t -> exists r, dget Req_EM_T t traj = Some r /\ within L n (C * (tau ^ onestep_order s + mesh L n ^ 2)) (u O t) r.
  Proof.
    set (p := onestep_order s).
    destruct (diffusion_space p) as (Cs & Cs0 & HS). destruct (diffusion_time p) as (Ct & Ct0 & HT).
    exists ((t1 - t0) * (Cs + Ct)).
    intros n enum x ord rpow g caches attr tau w state sv LC (W0 & W1 & W2) Hs Ht C1 Hsv.
    pose proof (n_pos L kappa n enum ord g caches attr LC) as Hn.
    assert (T01 : t0 <= t1) by (apply W2; eapply nth_error_In; eauto).
    pose proof (h_pos L PL n Hn) as Hh. set (h := mesh L n) in *.
    set (Q := Cs * h ^ 2 + Ct * tau ^ p).
    assert (HQ : 0 <= Q <= (Cs + Ct) * (tau ^ p + h ^ 2)).
    { unfold Q. assert (0 <= tau ^ p) by (apply pow_le; auto). assert (0 <= h ^ 2) by nra.
      assert (0 <= Cs * h ^ 2) by nra. assert (0 <= Ct * tau ^ p) by nra. assert (0 <= Cs * tau ^ p) by nra. assert (0 <= Ct * h ^ 2) by nra.
      lra. }
    destruct (forecast_keeps (@onestep_fun RF (list nat) s) (generated_trend enum x ord rpow ["x"%string] g caches attr diffusion)
      (fun t r => t0 <= t <= t1 /\
         (forall j, (j < n)%nat -> Rabs (at0 r j - u O t (INR j * h)) <= (t - t0) * Q)) w state sv t0 Hsv W0)
      as (traj & E & H).
    - split; [lra|]. intros j Hj; unfold at0; rewrite Hs by auto. fold h.
      rewrite Rminus_diag_eq by auto. rewrite Rabs_R0. rewrite Rminus_diag_eq by auto. lra.
    - intros k t t' r Hk1 Hk2 ([T1 T2] & HE).
      destruct (W1 k t t' Hk1 Hk2) as [S1 S2]. pose proof (W2 t' (nth_error_In _ _ Hk2)) as S3.
      destruct (step_agrees kappa n h s (generated_trend enum x ord rpow ["x"%string] g caches attr diffusion)
        (diffusion_trend L kappa n enum x ord rpow g caches attr LC PL) t r (t' - t)%R) as (r' & Er & Hr).
      exists r'. split; [exact Er|]. split; [lra|]. intros j Hj. rewrite Hr by auto. fold p.
      set (v := fun i => u O t (INR i * h)).
      assert (Dt : 0 <= t' - t <= tau) by lra.
      assert (X1 : Rabs (@exp_taylor RF nat (op kappa n h) (t' - t)%R p (at0 r) j - @exp_taylor RF nat (op kappa n h) (t' - t)%R p v j) <= (t - t0) * Q).
      { rewrite exp_sub. apply step_bounded; try lra; auto. nra. }
      pose proof (HS n t (t' - t) j Hn Hj ltac:(lra) ltac:(lra)) as X2. fold h in X2. fold v in X2.
      pose proof (HT t (t' - t) (INR j * h) T1 ltac:(lra) ltac:(lra)) as X3.
      replace (t + (t' - t)) with t' in X2, X3 by ring.
      assert (X4 : Ct * (t' - t) ^ S p <= (t' - t) * (Ct * tau ^ p)).
      { cbn [pow]. replace (Ct * ((t' - t) * (t' - t) ^ p)) with ((t' - t) * (Ct * (t' - t) ^ p)) by ring.
        apply Rmult_le_compat_l; [lra|]. apply Rmult_le_compat_l; auto. apply pow_incr. lra. }
      set (a := @exp_taylor RF nat (op kappa n h) (t' - t)%R p (at0 r) j) in *.
      set (b := @exp_taylor RF nat (op kappa n h) (t' - t)%R p v j) in *.
      set (c := taylor (fun k s => kappa ^ k * u (2 * k)%nat s (INR j * h)) t p t') in *.
      apply Rabs_inv in X1, X2, X3. apply Rabs_le. unfold Q in *. lra.
    - exists traj. split; [exact E|]. intros t Ht1 Ht2. destruct (H t Ht1 Ht2) as (r & G & [T1 T2] & HE).
      exists r. split; [exact G|]. intros j Hj. eapply Rle_trans; [apply HE; auto|]. fold p h.
      rewrite Rmult_assoc. apply Rmult_le_compat; lra.
  Qed.
End Diffusion.

(** ** instability *)
Lemma alternate_next n j : Nat.Even n -> (j < n)%nat -> (-1) ^ shift n 1 j = - (-1) ^ j.
Proof.
  intros (m & ->) Hj. unfold shift. destruct (Nat.eq_dec (S j) (2 * m)) as [E|N].
  - replace (Z.of_nat j + 1)%Z with (Z.of_nat (2 * m)) by lia. rewrite Z.mod_same by lia. cbn [Z.to_nat pow].
    pose proof (pow_1_even m) as P. rewrite <- E in P. cbn [pow] in P. lra.
  - rewrite Z.mod_small by lia. replace (Z.to_nat (Z.of_nat j + 1)) with (S j) by lia. cbn [pow]. ring.
Qed.
Lemma alternate_prev n j : Nat.Even n -> (j < n)%nat -> (-1) ^ shift n (-1) j = - (-1) ^ j.
Proof.
  intros (m & ->) Hj. unfold shift. destruct j as [|j].
  - replace (Z.of_nat 0 + -1)%Z with (Z.of_nat (2 * m - 1) + (-1) * Z.of_nat (2 * m))%Z by lia.
    rewrite Z.mod_add, Z.mod_small by lia. rewrite Nat2Z.id. pose proof (pow_1_even m) as P.
    replace (2 * m)%nat with (S (2 * m - 1)) in P by lia. cbn [pow] in *. lra.
  - replace (Z.of_nat (S j) + -1)%Z with (Z.of_nat j) by lia. rewrite Z.mod_small, Nat2Z.id by lia. cbn [pow]. ring.
Qed.

Theorem diffusion_unstable (L kappa : R) n enum x ord rpow g caches attr (t0 dt eps : R) state N :
  0 < L -> line_class L kappa n enum ord g caches attr -> Nat.Even n -> 0 < dt ->
  (forall j, (j < n)%nat -> state [O; j] = eps * (-1) ^ j) ->
  exists traj r, forecast Req_EM_T Rminus (@euler RF (list nat)) (generated_trend enum x ord rpow ["x"%string] g caches attr diffusion)
      (map (fun k => t0 + INR k * dt) (seq 0 (S N))) state SNone = Ok traj /\
    dget Req_EM_T (t0 + INR N * dt) traj = Some r /\
    forall j, (j < n)%nat -> r [O; j] = eps * (-1) ^ j * (1 - 4 * kappa * dt / mesh L n ^ 2) ^ N.
Proof.
  intros PL LC EV Pdt H0. pose proof (n_pos L kappa n enum ord g caches attr LC) as Hn.
  pose proof (h_pos L PL n Hn) as Hh. set (h := mesh L n) in *. set (q := 1 - 4 * kappa * dt / h ^ 2).
  set (w := map (fun k => t0 + INR k * dt) (seq 0 (S N))).
  assert (Nw : forall k t, nth_error w k = Some t -> t = t0 + INR k * dt).
  { intros k t Hk. unfold w in Hk. rewrite nth_error_map in Hk.
    destruct (nth_error (seq 0 (S N)) k) as [i|] eqn:E; [|discriminate]. injection Hk as <-.
    assert (k < S N)%nat by (rewrite <- (seq_length (S N) 0); apply nth_error_Some; congruence).
    rewrite (nth_error_nth' _ O) in E by (rewrite seq_length; auto). rewrite seq_nth in E by auto. injection E as <-. reflexivity. }
  destruct (forecast_keeps (@euler RF (list nat)) (generated_trend enum x ord rpow ["x"%string] g caches attr diffusion)
    (fun t r => exists k, t = t0 + INR k * dt /\ forall j, (j < n)%nat -> at0 r j = eps * (-1) ^ j * q ^ k) w state SNone t0)
    as (traj & E & H).
  - discriminate.
  - unfold w. cbn. f_equal. ring.
  - exists O. split; [cbn; ring|]. intros j Hj. unfold at0. rewrite H0 by auto. cbn. ring.
  - intros i t t' r Hi Hi' (k & Et & Hr). pose proof (Nw _ _ Hi) as E1. pose proof (Nw _ _ Hi') as E2.
    destruct (diffusion_trend L kappa n enum x ord rpow g caches attr LC PL t r) as (a & Ea & Ha).
    unfold euler. rewrite Ea. cbn [bind]. eexists. split; [reflexivity|]. exists (S k).
    assert (Ed : t' - t = dt) by (rewrite E1, E2, S_INR; ring).
    split; [rewrite S_INR; lra|]. intros j Hj.
    change (at0 (@vadd RF (list nat) r (@vscale RF (list nat) (t' - t)%R a)) j) with (at0 r j + (t' - t) * at0 a j).
    rewrite Ha, Ed by auto. fold h. unfold d2. rewrite !Hr by (auto using shift_lt).
    rewrite alternate_next, alternate_prev by auto. unfold q. cbn [pow]. field. lra.
  - assert (IN : In (t0 + INR N * dt) w).
    { unfold w. apply in_map_iff. exists N. split; [reflexivity|]. apply in_seq. lia. }
    destruct (H _ IN IN) as (r & G & k & Ek & Hr). exists traj, r. split; [exact E|]. split; [exact G|].
    assert (k = N) as ->. { apply INR_eq. apply (Rmult_eq_reg_r dt); lra. }
    exact Hr.
Qed.
Theorem diffusion_blow_up (L kappa dt eps : R) n : 0 < L -> (0 < n)%nat -> mesh L n ^ 2 < 2 * kappa * dt -> eps <> 0 ->
  forall B, exists N0, forall N, (N0 <= N)%nat -> forall j, B <= Rabs (eps * (-1) ^ j * (1 - 4 * kappa * dt / mesh L n ^ 2) ^ N).
Proof.
  intros PL Hn HU He B. pose proof (h_pos L PL n Hn) as Hh. set (h := mesh L n) in *. set (q := 1 - 4 * kappa * dt / h ^ 2).
  assert (Hq : Rabs q > 1).
  { assert (2 < 4 * kappa * dt / h ^ 2).
    { apply (Rmult_lt_reg_r (h ^ 2)); [nra|]. unfold Rdiv. rewrite Rmult_assoc, Rinv_l by nra. lra. }
    unfold q. rewrite Rabs_left; lra. }
  destruct (Pow_x_infinity q Hq (B / Rabs eps)) as (N0 & HN). exists N0. intros N HN' j.
  specialize (HN N HN'). rewrite !Rabs_mult, pow_1_abs, Rmult_1_r.
  assert (0 < Rabs eps) by (apply Rabs_pos_lt; auto).
  apply (Rmult_le_reg_r (/ Rabs eps)); [apply Rinv_0_lt_compat; auto|].
  replace (Rabs eps * Rabs (q ^ N) * / Rabs eps) with (Rabs (q ^ N)) by (field; lra). unfold Rdiv in HN. lra.
Qed.

Lemma shift_next n j : (j < n)%nat -> shift n 1 j = ((j + 1) mod n)%nat.
Proof. intros H. unfold shift. rewrite <- (Nat2Z.id ((j + 1) mod n)). f_equal. rewrite Nat2Z.inj_mod. f_equal. lia. Qed.
Lemma shift_prev n j : (j < n)%nat -> shift n (-1) j = ((j + n - 1) mod n)%nat.
Proof.
  intros H. unfold shift. rewrite <- (Nat2Z.id ((j + n - 1) mod n)). f_equal. rewrite Nat2Z.inj_mod.
  replace (Z.of_nat (j + n - 1)) with (Z.of_nat j + -1 + 1 * Z.of_nat n)%Z by lia. rewrite Z.mod_add by lia. reflexivity.
Qed.
