(** Random fields on a line given by curves on the sphere: with the four events of ReynoldsInst there
    are three centred random variables e1, e2, e3 of variance 1 that are pairwise uncorrelated, and the
    random field e1 p + e2 q + e3 r has variance 1 when (p, q, r) is on the sphere.  The curves are
    solutions of Frenet's equations with constant geodesic curvature. *)
From Coq Require Import List Arith Ring QArith Qcanon String FunctionalExtensionality Lia.
From Verif Require Import PyBase Reynolds ReynoldsInst PKFModel PKFSpec PKFInst.
Import ListNotations.
Close Scope Q_scope.
Open Scope Qc_scope.
Open Scope string_scope.

(** ** fields of one coordinate x, whose derivative is [a] times the derivative of the series *)
Definition line_dd (a : hs) (c : string) (f : rf) : rf :=
  fun o => if string_dec c "x" then h_mul a (h_tl (f o)) else h_q 0.

Lemma h_mul_q0 n b : h_mul_n n (h_q 0) b = 0.
Proof. rewrite h_mul_q. ring. Qed.
Lemma h_mul_q0r n b : h_mul_n n b (h_q 0) = 0.
Proof. rewrite h_mul_comm. apply h_mul_q0. Qed.
Lemma h_q0 n : h_q 0 n = 0. Proof. destruct n; reflexivity. Qed.
Lemma h_mul_addr n a b c : h_mul_n n a (h_add b c) = h_mul_n n a b + h_mul_n n a c.
Proof. rewrite h_mul_comm, h_mul_add, !(h_mul_comm n a). reflexivity. Qed.
Lemma h_mul_scalr n q a b : h_mul_n n a (fun k => q * b k) = q * h_mul_n n a b.
Proof. rewrite h_mul_comm, h_mul_scal, (h_mul_comm n b). reflexivity. Qed.
Lemma h_mul_avg n a (f : ev -> hs) : h_mul_n n a (fun k => avg (fun o => f o k)) = avg (fun o => h_mul_n n a (f o)).
Proof.
  unfold avg.
  transitivity (h_mul_n n a (h_add (h_add (h_add (fun k => weight (true, true) * f (true, true) k) (fun k => weight (false, true) * f (false, true) k))
      (fun k => weight (true, false) * f (true, false) k)) (fun k => weight (false, false) * f (false, false) k))); [reflexivity|].
  rewrite !h_mul_addr, !h_mul_scalr. reflexivity.
Qed.

Definition curve (a : hs) : RAlg.
Proof.
  refine (mkRAlg rf (r_q 0) (r_q 1) r_add r_mul r_sub r_opp r_th r_q eq_refl _ _ (line_dd a) _ _ _ _ r_EE _ r_pull _ _).
  - intros. extensionality o; extensionality n. unfold r_q, r_add, h_add, h_q. destruct n; [reflexivity|ring].
  - intros. extensionality o; extensionality n. unfold r_q, r_mul, h_mul. rewrite h_mul_q. destruct n; simpl; ring.
  - intros c f h. extensionality o; extensionality n. unfold line_dd, r_add. destruct (string_dec c "x"); [|unfold h_add; rewrite !h_q0; ring].
    unfold h_mul. exact (h_mul_addr n a (h_tl (f o)) (h_tl (h o))).
  - intros c f h. extensionality o; extensionality n. unfold line_dd, r_mul, r_add, h_add. destruct (string_dec c "x").
    + unfold h_mul at 1. rewrite h_mul_tl, h_mul_addr. unfold h_mul at 3 5. rewrite h_mul_assoc.
      f_equal. rewrite h_mul_assoc. rewrite h_mul_assoc. f_equal. extensionality m. apply h_mul_comm.
    + unfold h_mul. rewrite h_mul_q0, h_mul_q0r, h_q0. ring.
  - intros c q. extensionality o; extensionality n. unfold line_dd, r_q. destruct (string_dec c "x"); [|reflexivity].
    change (h_tl (h_q q)) with (fun _ : nat => 0). unfold h_mul. rewrite h_mul_comm, h_mul_zero, h_q0. reflexivity.
  - intros c d f. extensionality o; extensionality n. unfold line_dd. destruct (string_dec c "x"), (string_dec d "x"); try reflexivity.
    + change (h_tl (h_q 0)) with (fun _ : nat => 0). unfold h_mul. rewrite h_mul_comm, h_mul_zero, h_q0. reflexivity.
    + change (h_tl (h_q 0)) with (fun _ : nat => 0). unfold h_mul. rewrite h_q0, h_mul_comm, h_mul_zero. reflexivity.
  - intros. extensionality o; extensionality n. unfold r_EE, r_add, h_add, avg. ring.
  - intros. extensionality o; extensionality n. unfold r_EE, r_q. apply avg_const.
  - intros c f. extensionality o; extensionality n. unfold r_EE, line_dd. destruct (string_dec c "x").
    + unfold h_mul. symmetry. exact (h_mul_avg n a (fun o => h_tl (f o))).
    + rewrite h_q0. apply avg_const.
Defined.

(** ** three uncorrelated random variables *)
Definition r1 (o : ev) : Qc := if snd o then 0 else if fst o then Q2Qc (5 # 3) else Q2Qc (-5 # 3).
Definition r2 (o : ev) : Qc := if snd o then if fst o then Q2Qc (5 # 4) else Q2Qc (-5 # 4) else 0.
Definition r3 (o : ev) : Qc := if snd o then Q2Qc (-3 # 4) else Q2Qc (4 # 3).
Definition dot (n : nat) (p q : hs * hs * hs) : Qc :=
  let '(p1, p2, p3) := p in let '(q1, q2, q3) := q in h_mul_n n p1 q1 + h_mul_n n p2 q2 + h_mul_n n p3 q3.
Definition rand (p : hs * hs * hs) : rf :=
  let '(p1, p2, p3) := p in fun o k => r1 o * p1 k + r2 o * p2 k + r3 o * p3 k.
Lemma rand_centred p : r_EE (rand p) = r_q 0.
Proof.
  destruct p as [[p1 p2] p3]. extensionality o; extensionality n. unfold r_EE, rand, r_q. rewrite h_q0.
  unfold avg, weight, r1, r2, r3. cbn [fst snd].
  transitivity ((Q2Qc (9 # 50) * Q2Qc (5 # 3) + Q2Qc (9 # 50) * Q2Qc (-5 # 3)) * p1 n
    + (Q2Qc (8 # 25) * Q2Qc (5 # 4) + Q2Qc (8 # 25) * Q2Qc (-5 # 4)) * p2 n
    + (Q2Qc (8 # 25) * Q2Qc (-3 # 4) + Q2Qc (8 # 25) * Q2Qc (-3 # 4) + Q2Qc (9 # 50) * Q2Qc (4 # 3) + Q2Qc (9 # 50) * Q2Qc (4 # 3)) * p3 n); [ring|].
  replace (Q2Qc (9 # 50) * Q2Qc (5 # 3) + Q2Qc (9 # 50) * Q2Qc (-5 # 3)) with 0 by (apply Qc_is_canon; reflexivity).
  replace (Q2Qc (8 # 25) * Q2Qc (5 # 4) + Q2Qc (8 # 25) * Q2Qc (-5 # 4)) with 0 by (apply Qc_is_canon; reflexivity).
  replace (Q2Qc (8 # 25) * Q2Qc (-3 # 4) + Q2Qc (8 # 25) * Q2Qc (-3 # 4) + Q2Qc (9 # 50) * Q2Qc (4 # 3) + Q2Qc (9 # 50) * Q2Qc (4 # 3)) with 0
    by (apply Qc_is_canon; reflexivity). ring.
Qed.
Lemma rand_product p q : r_EE (r_mul (rand p) (rand q)) = fun _ n => dot n p q.
Proof.
  destruct p as [[p1 p2] p3], q as [[q1 q2] q3]. extensionality o; extensionality n. unfold r_EE, r_mul, h_mul, rand, dot.
  assert (G : forall a b c a' b' c', h_mul_n n (fun k => a * p1 k + b * p2 k + c * p3 k) (fun k => a' * q1 k + b' * q2 k + c' * q3 k)
    = a * a' * h_mul_n n p1 q1 + a * b' * h_mul_n n p1 q2 + a * c' * h_mul_n n p1 q3
      + b * a' * h_mul_n n p2 q1 + b * b' * h_mul_n n p2 q2 + b * c' * h_mul_n n p2 q3
      + c * a' * h_mul_n n p3 q1 + c * b' * h_mul_n n p3 q2 + c * c' * h_mul_n n p3 q3).
  { intros. change (fun k => a * p1 k + b * p2 k + c * p3 k) with (h_add (h_add (fun k => a * p1 k) (fun k => b * p2 k)) (fun k => c * p3 k)).
    change (fun k => a' * q1 k + b' * q2 k + c' * q3 k) with (h_add (h_add (fun k => a' * q1 k) (fun k => b' * q2 k)) (fun k => c' * q3 k)).
    rewrite !h_mul_add, !h_mul_addr, !h_mul_scal, !h_mul_scalr. ring. }
  unfold avg. rewrite !G.
  set (x11 := h_mul_n n p1 q1). set (x12 := h_mul_n n p1 q2). set (x13 := h_mul_n n p1 q3).
  set (x21 := h_mul_n n p2 q1). set (x22 := h_mul_n n p2 q2). set (x23 := h_mul_n n p2 q3).
  set (x31 := h_mul_n n p3 q1). set (x32 := h_mul_n n p3 q2). set (x33 := h_mul_n n p3 q3).
  assert (M : forall f f', avg (fun o => f o * f' o) = weight (true, true) * (f (true, true) * f' (true, true))
    + weight (false, true) * (f (false, true) * f' (false, true)) + weight (true, false) * (f (true, false) * f' (true, false))
    + weight (false, false) * (f (false, false) * f' (false, false))) by reflexivity.
  transitivity (avg (fun o => r1 o * r1 o) * x11 + avg (fun o => r1 o * r2 o) * x12 + avg (fun o => r1 o * r3 o) * x13
    + avg (fun o => r2 o * r1 o) * x21 + avg (fun o => r2 o * r2 o) * x22 + avg (fun o => r2 o * r3 o) * x23
    + avg (fun o => r3 o * r1 o) * x31 + avg (fun o => r3 o * r2 o) * x32 + avg (fun o => r3 o * r3 o) * x33).
  { rewrite !M. ring. }
  replace (avg (fun o => r1 o * r1 o)) with 1 by (apply Qc_is_canon; reflexivity).
  replace (avg (fun o => r2 o * r2 o)) with 1 by (apply Qc_is_canon; reflexivity).
  replace (avg (fun o => r3 o * r3 o)) with 1 by (apply Qc_is_canon; reflexivity).
  replace (avg (fun o => r1 o * r2 o)) with 0 by (apply Qc_is_canon; reflexivity).
  replace (avg (fun o => r2 o * r1 o)) with 0 by (apply Qc_is_canon; reflexivity).
  replace (avg (fun o => r1 o * r3 o)) with 0 by (apply Qc_is_canon; reflexivity).
  replace (avg (fun o => r3 o * r1 o)) with 0 by (apply Qc_is_canon; reflexivity).
  replace (avg (fun o => r2 o * r3 o)) with 0 by (apply Qc_is_canon; reflexivity).
  replace (avg (fun o => r3 o * r2 o)) with 0 by (apply Qc_is_canon; reflexivity). ring.
Qed.

(** ** Frenet's equations with curvature k: c' = t, t' = -c + k m, m' = -k t *)
Fixpoint frame (k : Qc) (x y z : Qc) (n : nat) : Qc * Qc * Qc :=
  match n with O => (x, y, z) | S n => let '(c, t, m) := frame k x y z n in (t, k * m - c, - (k * t)) end.
Section Frenet.
  Variable k : Qc.
  Definition part (i : Qc * Qc * Qc -> Qc) (x y z : Qc) : hs := fun n => i (frame k x y z n).
  Definition three (i : Qc * Qc * Qc -> Qc) : hs * hs * hs := (part i 1 0 0, part i 0 1 0, part i 0 0 1).
  Definition fc (v : Qc * Qc * Qc) := fst (fst v).
  Definition ft (v : Qc * Qc * Qc) := snd (fst v).
  Definition fm (v : Qc * Qc * Qc) := snd v.
  Lemma tl_c x y z : h_tl (part fc x y z) = part ft x y z.
  Proof. extensionality n. unfold h_tl, part. cbn [frame]. destruct (frame k x y z n) as [[c t] m]. reflexivity. Qed.
  Lemma tl_t x y z : h_tl (part ft x y z) = h_add (fun n => k * part fm x y z n) (fun n => - (1) * part fc x y z n).
  Proof. extensionality n. unfold h_tl, part, h_add. cbn [frame]. destruct (frame k x y z n) as [[c t] m]. unfold ft, fm, fc. cbn [fst snd]. ring. Qed.
  Lemma tl_m x y z : h_tl (part fm x y z) = fun n => - k * part ft x y z n.
  Proof. extensionality n. unfold h_tl, part. cbn [frame]. destruct (frame k x y z n) as [[c t] m]. unfold ft, fm. cbn [fst snd]. ring. Qed.

  Lemma gram n : dot n (three fc) (three fc) = h_q 1 n /\ dot n (three ft) (three ft) = h_q 1 n /\ dot n (three fm) (three fm) = h_q 1 n
    /\ dot n (three fc) (three ft) = 0 /\ dot n (three fc) (three fm) = 0 /\ dot n (three ft) (three fm) = 0.
  Proof.
    induction n as [|n (Hcc & Htt & Hmm & Hct & Hcm & Htm)].
    - repeat split; apply Qc_is_canon; reflexivity.
    - unfold dot, three in *. cbn [h_mul_n]. change (h_q 1 (S n)) with 0. change (h_q 1 n) with (h_q 1 n) in *.
      rewrite !tl_c, !tl_t, !tl_m, !h_mul_add, !h_mul_addr, !h_mul_scal, !h_mul_scalr.
      assert (Sym : forall i j, h_mul_n n (part i 1 0 0) (part j 1 0 0) + h_mul_n n (part i 0 1 0) (part j 0 1 0) + h_mul_n n (part i 0 0 1) (part j 0 0 1)
        = h_mul_n n (part j 1 0 0) (part i 1 0 0) + h_mul_n n (part j 0 1 0) (part i 0 1 0) + h_mul_n n (part j 0 0 1) (part i 0 0 1)).
      { intros i j. rewrite (h_mul_comm n (part i 1 0 0)), (h_mul_comm n (part i 0 1 0)), (h_mul_comm n (part i 0 0 1)). reflexivity. }
      pose proof (eq_trans (Sym ft fc) Hct) as Htc. pose proof (eq_trans (Sym fm fc) Hcm) as Hmc. pose proof (eq_trans (Sym fm ft) Htm) as Hmt.
      revert Hcc Htt Hmm Hct Hcm Htm Htc Hmc Hmt. generalize (h_q 1 n). intros d.
      generalize (h_mul_n n (part fc 1 0 0) (part fc 1 0 0)), (h_mul_n n (part fc 0 1 0) (part fc 0 1 0)), (h_mul_n n (part fc 0 0 1) (part fc 0 0 1)).
      generalize (h_mul_n n (part ft 1 0 0) (part ft 1 0 0)), (h_mul_n n (part ft 0 1 0) (part ft 0 1 0)), (h_mul_n n (part ft 0 0 1) (part ft 0 0 1)).
      generalize (h_mul_n n (part fm 1 0 0) (part fm 1 0 0)), (h_mul_n n (part fm 0 1 0) (part fm 0 1 0)), (h_mul_n n (part fm 0 0 1) (part fm 0 0 1)).
      generalize (h_mul_n n (part fc 1 0 0) (part ft 1 0 0)), (h_mul_n n (part fc 0 1 0) (part ft 0 1 0)), (h_mul_n n (part fc 0 0 1) (part ft 0 0 1)).
      generalize (h_mul_n n (part fc 1 0 0) (part fm 1 0 0)), (h_mul_n n (part fc 0 1 0) (part fm 0 1 0)), (h_mul_n n (part fc 0 0 1) (part fm 0 0 1)).
      generalize (h_mul_n n (part ft 1 0 0) (part fm 1 0 0)), (h_mul_n n (part ft 0 1 0) (part fm 0 1 0)), (h_mul_n n (part ft 0 0 1) (part fm 0 0 1)).
      generalize (h_mul_n n (part ft 1 0 0) (part fc 1 0 0)), (h_mul_n n (part ft 0 1 0) (part fc 0 1 0)), (h_mul_n n (part ft 0 0 1) (part fc 0 0 1)).
      generalize (h_mul_n n (part fm 1 0 0) (part fc 1 0 0)), (h_mul_n n (part fm 0 1 0) (part fc 0 1 0)), (h_mul_n n (part fm 0 0 1) (part fc 0 0 1)).
      generalize (h_mul_n n (part fm 1 0 0) (part ft 1 0 0)), (h_mul_n n (part fm 0 1 0) (part ft 0 1 0)), (h_mul_n n (part fm 0 0 1) (part ft 0 0 1)).
      intros mt1 mt2 mt3 mc1 mc2 mc3 tc1 tc2 tc3 tm1 tm2 tm3 cm1 cm2 cm3 ct1 ct2 ct3 mm1 mm2 mm3 tt1 tt2 tt3 cc1 cc2 cc3.
      intros Hcc Htt Hmm Hct Hcm Htm Htc Hmc Hmt.
      repeat split.
      + transitivity ((tc1 + tc2 + tc3) + (ct1 + ct2 + ct3)); [ring|]. rewrite Htc, Hct. ring.
      + transitivity (k * (mt1 + mt2 + mt3) - (ct1 + ct2 + ct3) + (k * (tm1 + tm2 + tm3) - (tc1 + tc2 + tc3))); [ring|]. rewrite Hmt, Hct, Htm, Htc. ring.
      + transitivity (- k * (tm1 + tm2 + tm3) - k * (mt1 + mt2 + mt3)); [ring|]. rewrite Htm, Hmt. ring.
      + transitivity ((tt1 + tt2 + tt3) + k * (cm1 + cm2 + cm3) - (cc1 + cc2 + cc3)); [ring|]. rewrite Htt, Hcm, Hcc. ring.
      + transitivity ((tm1 + tm2 + tm3) - k * (ct1 + ct2 + ct3)); [ring|]. rewrite Htm, Hct. ring.
      + transitivity (k * (mm1 + mm2 + mm3) - (cm1 + cm2 + cm3) - k * (tt1 + tt2 + tt3)); [ring|]. rewrite Hmm, Hcm, Htt. ring.
  Qed.
End Frenet.

(** ** the statistics of such a field *)
Section World.
  Variables (k : Qc) (a ia : hs).
  Hypothesis Ha : h_mul a ia = h_q 1.
  Notation A := (curve a).
  Add Ring curve_ring : (c_th (curve a)).
  Open Scope ra_scope.
  Definition wc : A := rand (three k fc).
  Definition wt : A := rand (three k ft).
  Definition wm : A := rand (three k fm).
  Definition wa : A := (fun _ => a) : rf.
  Definition wi : A := (fun _ => ia) : rf.
  Definition wk : A := cq (r := A) k.
  Lemma wa_wi : wa * wi = 1.
  Proof. change (r_mul wa wi = r_q 1). extensionality o. exact Ha. Qed.
  Lemma w_det (h : hs) : EE (r := A) (fun _ => h) = (fun _ => h).
  Proof. change (r_EE (fun _ => h) = (fun _ => h)). unfold r_EE. extensionality o. extensionality n. apply avg_const. Qed.
  Lemma det_wa : det wa. Proof. exact (w_det a). Qed.
  Lemma det_wi : det wi. Proof. exact (w_det ia). Qed.
  Lemma det_wk : det wk. Proof. apply EE_cq. Qed.
  Lemma wdet_mul (x y : A) : det x -> det y -> det (x * y).
  Proof. intros Hx Hy. unfold det. rewrite EE_det_l, Hy by exact Hx. reflexivity. Qed.
  Lemma d_other c (x : A) : c <> "x" -> dd c x = 0.
  Proof. intros H. change (line_dd a c x = r_q 0). extensionality o. unfold line_dd. destruct (string_dec c "x"); [contradiction|reflexivity]. Qed.
  Lemma d_wc : dd "x" wc = wa * wt.
  Proof.
    change (line_dd a "x" wc = r_mul wa wt). extensionality o. unfold line_dd, r_mul, wa. change (if string_dec "x" "x" then ?u else ?v) with u.
    f_equal. unfold wc, wt, rand, three. extensionality n. unfold h_tl at 1.
    change (part k fc 1 0 0 (S n)) with (h_tl (part k fc 1 0 0) n). change (part k fc 0 1 0 (S n)) with (h_tl (part k fc 0 1 0) n).
    change (part k fc 0 0 1 (S n)) with (h_tl (part k fc 0 0 1) n). rewrite !tl_c. reflexivity.
  Qed.
  Lemma d_wt : dd "x" wt = wa * (wk * wm - wc).
  Proof.
    change (line_dd a "x" wt = r_mul wa (r_sub (r_mul (r_q k) wm) wc)). extensionality o. unfold line_dd, r_mul, wa. change (if string_dec "x" "x" then ?u else ?v) with u.
    f_equal. unfold wc, wt, wm, rand, three, r_sub, h_sub, r_q, h_mul. extensionality n. rewrite h_mul_q. unfold h_tl at 1.
    change (part k ft 1 0 0 (S n)) with (h_tl (part k ft 1 0 0) n). change (part k ft 0 1 0 (S n)) with (h_tl (part k ft 0 1 0) n).
    change (part k ft 0 0 1 (S n)) with (h_tl (part k ft 0 0 1) n). rewrite !tl_t. unfold h_add. ring.
  Qed.
  Lemma d_wm : dd "x" wm = - (wa * (wk * wt)).
  Proof.
    change (line_dd a "x" wm = r_opp (r_mul wa (r_mul (r_q k) wt))). extensionality o. unfold line_dd, r_opp, r_mul, wa. change (if string_dec "x" "x" then ?u else ?v) with u.
    extensionality n. unfold h_opp. unfold h_mul at 1 2. transitivity (h_mul_n n a (fun j => - (1) * h_mul (r_q k o) (wt o) j)%Qc); [|rewrite h_mul_scalr; ring].
    f_equal. unfold wt, wm, rand, three, r_q, h_mul. extensionality j. rewrite h_mul_q. unfold h_tl at 1.
    change (part k fm 1 0 0 (S j)) with (h_tl (part k fm 1 0 0) j). change (part k fm 0 1 0 (S j)) with (h_tl (part k fm 0 1 0) j).
    change (part k fm 0 0 1 (S j)) with (h_tl (part k fm 0 0 1) j). rewrite !tl_m. ring.
  Qed.
  Lemma E_product i j d : (forall n, dot n (three k i) (three k j) = h_q d n) -> EE (r := A) ((rand (three k i) : A) * (rand (three k j) : A)) = cq (r := A) d.
  Proof. intros H. change (r_EE (r_mul (rand (three k i)) (rand (three k j))) = r_q d). rewrite rand_product. extensionality o. extensionality n. apply H. Qed.
  Lemma E_cc : EE (wc * wc) = 1. Proof. apply E_product. intros n. apply (gram k n). Qed.
  Lemma E_tt : EE (wt * wt) = 1. Proof. apply E_product. intros n. apply (gram k n). Qed.
  Lemma E_mm : EE (wm * wm) = 1. Proof. apply E_product. intros n. apply (gram k n). Qed.
  Lemma E_ct : EE (wc * wt) = 0. Proof. apply (E_product fc ft 0%Qc). intros n. rewrite h_q0. apply (gram k n). Qed.
  Lemma E_cm : EE (wc * wm) = 0. Proof. apply (E_product fc fm 0%Qc). intros n. rewrite h_q0. apply (gram k n). Qed.
  Lemma E_tm : EE (wt * wm) = 0. Proof. apply (E_product ft fm 0%Qc). intros n. rewrite h_q0. apply (gram k n). Qed.
  Lemma E_c : EE wc = 0. Proof. exact (rand_centred (three k fc)). Qed.

  Definition world : env A := mkEnv
    (fun f => match f with
              | FField _ | FMean _ | FCov _ _ | FExt _ _ => 0
              | FErr _ | FEps _ => wc
              | FVar _ | FStd _ => 1
              | FMet _ _ _ | FInvAsp _ _ _ => wa * wa
              | FAsp _ _ _ => wi * wi
              | FDif _ _ _ => cq (Q2Qc (1 # 2)) * (wi * wi)
              | FInvDif _ _ _ => cq (Q2Qc 2) * (wa * wa)
              end)
    (fun _ => 1) (fun _ => 1) (fun _ => 1) 1.

  Lemma w_det1 : det (1 : A).
  Proof. unfold det. rewrite <- (cq_1 A). apply EE_cq. Qed.
  Lemma world_statistics : statistics ["x"] 1 world.
  Proof.
    assert (D0 : det (0 : A)) by exact (EE_0 (A := A)). pose proof w_det1 as D1.
    assert (DA : det (wa * wa)) by (apply wdet_mul; apply det_wa). assert (DI : det (wi * wi)) by (apply wdet_mul; apply det_wi).
    constructor; intros; cbn [world e_fn e_sig e_isig e_cst e_small].
    - destruct f; cbn [is_random] in *; try discriminate; try assumption; (apply wdet_mul; [apply EE_cq|assumption]).
    - exact D1.
    - rewrite <- (cq_1 A). apply dd_cq.
    - apply (dd_0 (A := A)).
    - exact E_c.
    - symmetry. exact E_cc.
    - ring.
    - exact D1.
    - ring.
    - ring.
    - cbn [List.length] in *. replace b with 0%nat by lia. replace a0 with 0%nat by lia. cbn [nth]. rewrite d_wc.
      replace (wa * wt * (wa * wt)) with (wa * wa * (wt * wt)) by ring. rewrite EE_det_l, E_tt by exact DA. ring.
    - lia.
    - reflexivity.
    - reflexivity.
  Qed.
  Lemma world_aspect : tensor_is ["x"] 1 world FAsp FInvAsp 1.
  Proof.
    assert (H : wi * wi * (wa * wa) = 1).
    { transitivity (wa * wi * (wa * wi)); [ring|]. rewrite wa_wi. ring. }
    intros i Hi. split; intros x y Hx Hy; cbn [List.length] in *; replace x with 0%nat by lia; replace y with 0%nat by lia;
      cbv [mat_mul seq map asum fold_right tensor_matrix Nat.ltb Nat.leb scalar_matrix Nat.eqb world e_fn]; rewrite H;
      (transitivity (1 : A); [ring|]); rewrite <- (cq_1 A); apply (f_equal (cq (r := A))), Qc_is_canon; reflexivity.
  Qed.
  (** the mean square of the second derivative when D a = b a *)
  Lemma world_second b : det b -> dd "x" wa = wa * b ->
    EE (dd "x" (dd "x" wc) * dd "x" (dd "x" wc)) = wa * wa * (b * b + wa * wa * (wk * wk + 1)).
  Proof.
    intros Db Hb. rewrite d_wc, dd_mul, d_wt, Hb.
    replace ((wa * b * wt + wa * (wa * (wk * wm - wc))) * (wa * b * wt + wa * (wa * (wk * wm - wc))))
      with (wa * wa * (b * b * (wt * wt) + b * wa * wk * (wt * wm) + b * wa * wk * (wt * wm) + wa * wa * (wk * wk) * (wm * wm)
            + wa * wa * (wc * wc) - b * wa * (wc * wt) - b * wa * (wc * wt) - wa * wa * wk * (wc * wm) - wa * wa * wk * (wc * wm))) by ring.
    pose proof det_wa as Da. pose proof det_wk as Dk.
    assert (Daa : det (wa * wa)) by exact (wdet_mul wa wa Da Da).
    assert (Dbb : det (b * b)) by exact (wdet_mul b b Db Db).
    assert (Dba : det (b * wa)) by exact (wdet_mul b wa Db Da).
    assert (Dbak : det (b * wa * wk)) by exact (wdet_mul (b * wa) wk Dba Dk).
    assert (Dkk : det (wk * wk)) by exact (wdet_mul wk wk Dk Dk).
    assert (Daakk : det (wa * wa * (wk * wk))) by exact (wdet_mul (wa * wa) (wk * wk) Daa Dkk).
    assert (Daak : det (wa * wa * wk)) by exact (wdet_mul (wa * wa) wk Daa Dk).
    rewrite EE_det_l by exact Daa.
    rewrite !EE_sub, !EE_add, (EE_det_l (b * b)), !(EE_det_l (b * wa * wk)), (EE_det_l (wa * wa * (wk * wk))), (EE_det_l (wa * wa)),
      !(EE_det_l (b * wa)), !(EE_det_l (wa * wa * wk)), E_tt, E_tm, E_mm, E_cc, E_ct, E_cm by assumption. ring.
  Qed.
End World.

Section Rings.
  Context {A : RAlg}.
  Add Ring rings_ring : (c_th A).
  Open Scope ra_scope.
  Lemma mul_0_sub (x : A) : x - (1 + 1) * 0 = x. Proof. ring. Qed.
  Lemma mul_0_r (x : A) : x * 0 = 0. Proof. ring. Qed.
  Lemma circle_ring (k : A) : 1 * 1 * (0 * 0 + 1 * 1 * (k * k + 1)) = k * k + 1. Proof. ring. Qed.
  Lemma spiral_ring (a : A) : a * a * (a * a + a * a * (1 * 1 + 1)) = (1 + (1 + 1)) * (a * a * (a * a)). Proof. ring. Qed.
End Rings.

(** constant metric, curvature k *)
Lemma one_one : h_mul (h_q 1) (h_q 1) = h_q 1.
Proof. extensionality n. unfold h_mul. rewrite h_mul_q. ring. Qed.
Definition Circles : RAlg := curve (h_q 1).
Definition circle (k : Qc) : env Circles := world k (h_q 1) (h_q 1).
Lemma circle_second k : EE (r := Circles) (dd "x" (dd "x" (e_fn (circle k) (FEps 0))) * dd "x" (dd "x" (e_fn (circle k) (FEps 0))))%ra
  = cq (r := Circles) (k * k + 1)%Qc.
Proof.
  refine (eq_trans (world_second k (h_q 1) (c0 : Circles) (EE_0 (A := Circles)) _) _).
  - refine (eq_trans (dd_cq Circles "x" 1%Qc) _). symmetry. exact (mul_0_r (A := Circles) (wa (h_q 1))).
  - rewrite cq_add, cq_mul, cq_1. change (wa (h_q 1)) with (c1 : Circles). change (wk k (h_q 1)) with (cq (r := Circles) k).
    exact (circle_ring (cq (r := Circles) k)).
Qed.

(** curvature 1 and growing metric exp(2x) *)
Definition Spirals : RAlg := curve h_exp.
Definition spiral : env Spirals := world 1 h_exp h_sign.
Lemma spiral_second : EE (r := Spirals) (dd "x" (dd "x" (e_fn spiral (FEps 0))) * dd "x" (dd "x" (e_fn spiral (FEps 0))))%ra
  = ((1 + (1 + 1)) * (e_fn spiral (FMet 0 0 0) * e_fn spiral (FMet 0 0 0)))%ra.
Proof.
  refine (eq_trans (world_second 1 h_exp (wa h_exp) (det_wa h_exp) _) _).
  - reflexivity.
  - cbn [spiral world e_fn]. change (wk 1 h_exp) with (c1 : Spirals). exact (spiral_ring (wa h_exp)).
Qed.
