(** The inverse of a matrix of smooth functions is smooth. *)
From Coq Require Import List Arith Bool Reals Lia Lra Psatz FunctionalExtensionality.
From Verif Require Import FieldFacts FDExprSpec FDReal ConsistSpec ConsistProofs AdvectConv WindConv StatSmooth.
Import ListNotations.
Open Scope R_scope.

Lemma sumk_S n f : sumk (S n) f = sumk n f + f n.
Proof. unfold sumk. rewrite seq_S, map_app, fold_right_app. cbn [map fold_right plus]. generalize (f n) as x. induction (seq 0 n) as [|k l IH]; intros x; cbn [map fold_right]; [ring|]. rewrite IH. ring. Qed.
Lemma sumk_plus n f g : sumk n (fun k => f k + g k) = sumk n f + sumk n g.
Proof. induction n as [|n IH]; [unfold sumk; cbn; ring|]. rewrite !sumk_S, IH. ring. Qed.
Lemma sumk_zero n : sumk n (fun _ => 0) = 0.
Proof. induction n as [|n IH]; [reflexivity|]. rewrite sumk_S, IH. ring. Qed.
Lemma sumk_scale_r n c f : sumk n (fun k => f k * c) = sumk n f * c.
Proof. induction n as [|n IH]; [unfold sumk; cbn; ring|]. rewrite !sumk_S, IH. ring. Qed.
Lemma sumk_opp n f : sumk n (fun k => - f k) = - sumk n f.
Proof. induction n as [|n IH]; [unfold sumk; cbn; ring|]. rewrite !sumk_S, IH. ring. Qed.
Lemma sumk_swap n m (f : nat -> nat -> R) : sumk n (fun a => sumk m (fun b => f a b)) = sumk m (fun b => sumk n (fun a => f a b)).
Proof. induction n as [|n IH]; [symmetry; exact (sumk_zero m)|]. rewrite sumk_S, IH. rewrite <- sumk_plus. apply sumk_ext. intros b _. rewrite sumk_S. reflexivity. Qed.
Lemma sumk_delta n (f : nat -> R) k : (k < n)%nat -> sumk n (fun j => (if Nat.eqb k j then 1 else 0) * f j) = f k.
Proof.
  intros H. induction n as [|n IH]; [lia|]. rewrite sumk_S. destruct (Nat.eq_dec k n) as [->|N].
  - rewrite Nat.eqb_refl. rewrite (sumk_ext n _ (fun _ => 0)); [rewrite sumk_zero; ring|]. intros j Hj. destruct (Nat.eqb_spec n j); [lia|ring].
  - rewrite IH by lia. destruct (Nat.eqb_spec k n); [lia|ring].
Qed.

Section Matrix.
  Variable n : nat.
  Definition mat := nat -> nat -> R.
  Definition mm (A B : mat) : mat := fun a b => sumk n (fun c => A a c * B c b).
  Definition same (A B : mat) : Prop := forall a b, (a < n)%nat -> (b < n)%nat -> A a b = B a b.
  Definition unit_mat : mat := fun a b => if Nat.eqb a b then 1 else 0.
  Definition inverse_of (A B : mat) : Prop := same (mm A B) unit_mat /\ same (mm B A) unit_mat.
  Lemma mm_assoc A B C a b : mm A (mm B C) a b = mm (mm A B) C a b.
  Proof.
    unfold mm. rewrite (sumk_ext n _ (fun c => sumk n (fun d => A a c * B c d * C d b))); [|intros c _; rewrite <- sumk_scale; apply sumk_ext; intros; ring].
    rewrite sumk_swap. apply sumk_ext. intros d _. rewrite <- sumk_scale_r. reflexivity.
  Qed.
  Lemma mm3 A B C a b : mm A (mm B C) a b = sumk n (fun c => sumk n (fun d => A a c * (B c d * C d b))).
  Proof. unfold mm. apply sumk_ext. intros c _. rewrite <- sumk_scale. reflexivity. Qed.
  Lemma mm_same A A' B B' : same A A' -> same B B' -> same (mm A B) (mm A' B').
  Proof. intros H1 H2 a b Ha Hb. apply sumk_ext. intros c Hc. rewrite H1, H2; auto. Qed.
  Lemma mm_unit_l A : same (mm unit_mat A) A.
  Proof. intros a b Ha Hb. exact (sumk_delta n (fun c => A c b) a Ha). Qed.
  Lemma mm_unit_r A : same (mm A unit_mat) A.
  Proof. intros a b Ha Hb. unfold mm. rewrite <- (sumk_delta n (fun c => A a c) b Hb). apply sumk_ext. intros c Hc. unfold unit_mat. rewrite Nat.eqb_sym. ring. Qed.
  Definition madd (A B : mat) : mat := fun a b => A a b + B a b.
  Definition mopp (A : mat) : mat := fun a b => - A a b.
  Lemma mm_add_l A B C a b : mm (madd A B) C a b = mm A C a b + mm B C a b.
  Proof. unfold mm, madd. rewrite <- sumk_plus. apply sumk_ext; intros; ring. Qed.
  Lemma mm_add_r A B C a b : mm A (madd B C) a b = mm A B a b + mm A C a b.
  Proof. unfold mm, madd. rewrite <- sumk_plus. apply sumk_ext; intros; ring. Qed.
  Lemma mm_opp_l A C a b : mm (mopp A) C a b = - mm A C a b.
  Proof. unfold mm, mopp. rewrite <- sumk_opp. apply sumk_ext; intros; ring. Qed.
  Lemma mm_opp_r A C a b : mm A (mopp C) a b = - mm A C a b.
  Proof. unfold mm, mopp. rewrite <- sumk_opp. apply sumk_ext; intros; ring. Qed.
  Lemma mm_ext A A' B B' a b : (forall a b, A a b = A' a b) -> (forall a b, B a b = B' a b) -> mm A B a b = mm A' B' a b.
  Proof. intros H1 H2. apply sumk_ext. intros. rewrite H1, H2. reflexivity. Qed.
  (** the difference of two inverses *)
  Lemma inverse_diff A B A' B' : inverse_of A B -> inverse_of A' B' -> same (madd B (mopp B')) (mopp (mm B (mm (madd A (mopp A')) B'))).
  Proof.
    intros [H1 H2] [H3 H4] a b Ha Hb. unfold mopp at 2. rewrite (mm_ext B B (mm (madd A (mopp A')) B') (madd (mm A B') (mopp (mm A' B')))); auto.
    2: { intros c d. rewrite mm_add_l, mm_opp_l. reflexivity. }
    rewrite mm_add_r, mm_opp_r, mm_assoc.
    rewrite (mm_same (mm B A) unit_mat B' B' H2 (fun _ _ _ _ => eq_refl) a b Ha Hb), (mm_unit_l B' a b Ha Hb).
    rewrite (mm_same B B (mm A' B') unit_mat (fun _ _ _ _ => eq_refl) H3 a b Ha Hb), (mm_unit_r B a b Ha Hb). unfold madd, mopp. ring.
  Qed.
End Matrix.

(** ** slopes *)
Lemma slope_of f x l : derivable_pt_lim f x l -> exists q, continuity_pt q x /\ q x = l /\ forall y, f y - f x = q y * (y - x).
Proof.
  intros D. exists (fun y => if Req_EM_T y x then l else (f y - f x) / (y - x)). split; [|split].
  - intros eps He. destruct (D eps He) as [d Hd]. exists d. split; [apply cond_pos|]. intros y [_ Hy]. change R in y. cbn in Hy |- *. unfold R_dist in *.
    destruct (Req_EM_T x x) as [_|N]; [|congruence]. destruct (Req_EM_T y x) as [->|N]; [replace (l - l) with 0 by ring; rewrite Rabs_R0; lra|].
    specialize (Hd (y - x)). assert (E : x + (y - x) = y) by ring; rewrite E in Hd. apply Hd; [lra|exact Hy].
  - cbv beta. destruct (Req_EM_T x x); congruence.
  - intros y. destruct (Req_EM_T y x) as [->|N]; [ring|]. field. lra.
Qed.
Lemma of_slope f q x e : 0 < e -> continuity_pt q x -> (forall y, Rabs (y - x) < e -> f y - f x = q y * (y - x)) -> derivable_pt_lim f x (q x).
Proof.
  intros He C H eps Heps. destruct (C eps Heps) as (d & Hd & Q). assert (P : 0 < Rmin d e) by (apply Rmin_pos; auto). exists (mkposreal _ P).
  intros h Nh Hh. cbn in Hh. pose proof (Rmin_l d e). pose proof (Rmin_r d e). rewrite H by (replace (x + h - x) with h by ring; lra).
  replace (q (x + h) * (x + h - x) / h) with (q (x + h)) by (field; auto). specialize (Q (x + h)). cbn in Q. unfold R_dist, D_x, no_cond in Q. apply Q. split; [split; auto; lra|]. replace (x + h - x) with h by ring. lra.
Qed.
Lemma cont_sum n (f : nat -> R -> R) x : (forall k, (k < n)%nat -> continuity_pt (f k) x) -> continuity_pt (fun y => sumk n (fun k => f k y)) x.
Proof.
  intros H. induction n as [|n IH]; [apply continuity_pt_const; intros ? ?; reflexivity|].
  assert (E : (fun y => sumk (S n) (fun k => f k y)) = (fun y => sumk n (fun k => f k y) + f n y)) by (apply functional_extensionality; intros; apply sumk_S). rewrite E.
  apply (continuity_pt_plus (fun y => sumk n (fun k => f k y)) (f n)); [apply IH; intros; apply H; lia|apply H; lia].
Qed.
Lemma cont_const c x : continuity_pt (fun _ => c) x. Proof. apply continuity_pt_const. intros ? ?. reflexivity. Qed.
Lemma cont_squeeze f g x e : 0 < e -> continuity_pt g x -> g x = 0 -> (forall y, Rabs (y - x) < e -> Rabs (f y - f x) <= g y) -> continuity_pt f x.
Proof.
  intros He C Z H eps Heps. destruct (C eps Heps) as (d & Hd & Q). exists (Rmin d e). split; [apply Rmin_pos; auto|]. intros y [Hy1 Hy2]. change R in y. cbn in *. unfold R_dist in *.
  pose proof (Rmin_l d e). pose proof (Rmin_r d e). assert (L1 : Rabs (y - x) < d) by lra. assert (L2 : Rabs (y - x) < e) by lra. specialize (Q y (conj Hy1 L1)). rewrite Z, Rminus_0_r in Q. specialize (H y L2).
  pose proof (Rle_abs (g y)). lra.
Qed.

Section Curve.
  Variables (n : nat) (G S : R -> mat) (dG : mat) (x e B : R).
  Hypothesis He : 0 < e.
  Hypothesis HI : forall y, Rabs (y - x) < e -> inverse_of n (G y) (S y).
  Hypothesis HB : forall y a b, Rabs (y - x) < e -> (a < n)%nat -> (b < n)%nat -> Rabs (S y a b) <= B.
  Hypothesis HG : forall a b, (a < n)%nat -> (b < n)%nat -> derivable_pt_lim (fun y => G y a b) x (dG a b).
  Let here : Rabs (x - x) < e. Proof. replace (x - x) with 0 by ring. rewrite Rabs_R0. exact He. Qed.
  Lemma curve_step y a b : Rabs (y - x) < e -> (a < n)%nat -> (b < n)%nat ->
    S y a b - S x a b = - sumk n (fun c => S y a c * sumk n (fun d => (G y c d - G x c d) * S x d b)).
  Proof. intros Hy Ha Hb. exact (inverse_diff n (G y) (S y) (G x) (S x) (HI y Hy) (HI x here) a b Ha Hb). Qed.
  Lemma curve_cont a b : (a < n)%nat -> (b < n)%nat -> continuity_pt (fun y => S y a b) x.
  Proof.
    intros Ha Hb. apply (cont_squeeze _ (fun y => sumk n (fun c => B * sumk n (fun d => Rabs (G y c d - G x c d) * B))) x e He).
    - apply cont_sum. intros c Hc. apply (continuity_pt_mult (fun _ => B)); [apply cont_const|]. apply cont_sum. intros d Hd.
      apply (continuity_pt_mult _ (fun _ => B)); [|apply cont_const]. apply (continuity_pt_comp (fun y => G y c d - G x c d) Rabs); [|apply Rcontinuity_abs].
      apply (continuity_pt_minus (fun y => G y c d) (fun _ => G x c d)); [|apply cont_const]. apply derivable_continuous_pt. exists (dG c d). apply HG; auto.
    - cbv beta. rewrite (sumk_ext n _ (fun _ => 0)); [apply sumk_zero|]. intros c _. rewrite (sumk_ext n _ (fun _ => 0)); [rewrite sumk_zero; ring|].
      intros d _. replace (G x c d - G x c d) with 0 by ring. rewrite Rabs_R0. ring.
    - intros y Hy. rewrite curve_step by auto. rewrite Rabs_Ropp. apply sumk_bound. intros c Hc. rewrite Rabs_mult.
      apply Rmult_le_compat; auto using Rabs_pos. apply sumk_bound. intros d Hd. rewrite Rabs_mult. apply Rmult_le_compat_l; auto using Rabs_pos.
  Qed.
  Lemma slopes : exists q : nat -> nat -> R -> R, forall c d, (c < n)%nat -> (d < n)%nat ->
    continuity_pt (q c d) x /\ q c d x = dG c d /\ forall y, G y c d - G x c d = q c d y * (y - x).
  Proof.
    exists (fun c d y => if Req_EM_T y x then dG c d else (G y c d - G x c d) / (y - x)). intros c d Hc Hd. destruct (slope_of _ _ _ (HG c d Hc Hd)) as (q & C & E & L).
    assert (Q : q = (fun y => if Req_EM_T y x then dG c d else (G y c d - G x c d) / (y - x))).
    { apply functional_extensionality. intros y. destruct (Req_EM_T y x) as [->|N]; auto. rewrite (L y). field. lra. }
    subst q. auto.
  Qed.
  Theorem curve_deriv a b : (a < n)%nat -> (b < n)%nat -> derivable_pt_lim (fun y => S y a b) x (- mm n (S x) (mm n dG (S x)) a b).
  Proof.
    intros Ha Hb. destruct slopes as (q & Q).
    pose (r := fun y => - sumk n (fun c => S y a c * sumk n (fun d => q c d y * S x d b))).
    replace (- mm n (S x) (mm n dG (S x)) a b) with (r x).
    - apply (of_slope _ r x e He).
      + apply (continuity_pt_opp (fun y => sumk n (fun c => S y a c * sumk n (fun d => q c d y * S x d b)))). apply cont_sum. intros c Hc.
        apply (continuity_pt_mult (fun y => S y a c)); [apply curve_cont; auto|]. apply cont_sum. intros d Hd.
        apply (continuity_pt_mult (q c d) (fun _ => S x d b)); [apply Q; auto|apply cont_const].
      + intros y Hy. rewrite curve_step by auto. unfold r. rewrite Ropp_mult_distr_l_reverse. f_equal. rewrite <- sumk_scale_r. apply sumk_ext. intros c Hc. rewrite Rmult_assoc. f_equal.
        rewrite <- sumk_scale_r. apply sumk_ext. intros d Hd. destruct (Q c d Hc Hd) as (_ & _ & L). rewrite L. ring.
    - unfold r, mm. f_equal. apply sumk_ext. intros c Hc. f_equal. apply sumk_ext. intros d Hd. destruct (Q c d Hc Hd) as (_ & -> & _). reflexivity.
  Qed.
End Curve.

Section Inverse.
  Variables (n : nat) (T0 T1 : R) (g s : nat -> nat -> R -> point -> R) (B : R).
  Notation on t := (T0 < t < T1).
  Hypothesis Hg : forall a b, (a < n)%nat -> (b < n)%nat -> smoothf n T0 T1 (g a b).
  Hypothesis HI : forall t p, on t -> inverse_of n (fun a b => g a b t p) (fun a b => s a b t p).
  Hypothesis HB : forall a b t p, on t -> (a < n)%nat -> (b < n)%nat -> Rabs (s a b t p) <= B.
  Theorem deriv_inverse k t p (dg : mat) : on t -> (forall a b, (a < n)%nat -> (b < n)%nat -> deriv k (g a b) t p (dg a b)) ->
    forall a b, (a < n)%nat -> (b < n)%nat -> deriv k (s a b) t p (- mm n (fun a b => s a b t p) (mm n dg (fun a b => s a b t p)) a b).
  Proof.
    intros Ht D a b Ha Hb. destruct k as [i|]; unfold deriv in *.
    - pose proof (curve_deriv n (fun (y : R) a b => g a b t (@at_coord RF p i y)) (fun (y : R) a b => s a b t (@at_coord RF p i y)) dg (p i) 1 B Rlt_0_1 (fun y _ => HI t _ Ht)
        (fun y a b _ Ha Hb => HB a b t _ Ht Ha Hb) D a b Ha Hb) as H. cbv beta in H. rewrite at_self in H. exact H.
    - assert (P : 0 < Rmin (t - T0) (T1 - t)) by (apply Rmin_pos; lra).
      assert (N : forall y, Rabs (y - t) < Rmin (t - T0) (T1 - t) -> on y) by (intros y Hy; pose proof (Rmin_l (t - T0) (T1 - t)); pose proof (Rmin_r (t - T0) (T1 - t)); apply Rabs_def2 in Hy; lra).
      exact (curve_deriv n (fun y a b => g a b y p) (fun y a b => s a b y p) dg t _ B P (fun y Hy => HI y p (N y Hy)) (fun y a b Hy Ha Hb => HB a b y p (N y Hy) Ha Hb) D a b Ha Hb).
  Qed.
  Notation atom := (satom (nat * nat) (nat * nat)).
  Definition sat (a b : nat) : atom := extra _ _ (a, b).
  Definition gat (k : option nat) (a b : nat) : atom := stepped _ _ k (a, b) O none.
  Definition dS (k : option nat) (y : nat * nat) : spoly atom :=
    flat_map (fun c => flat_map (fun d => [(-1, [sat (fst y) c; gat k c d; sat d (snd y)])]) (seq 0 n)) (seq 0 n).
  Lemma dpoly_flat_map X (delta : option nat -> X -> spoly X) k (P : nat -> spoly X) l : dpoly X delta k (flat_map P l) = flat_map (fun c => dpoly X delta k (P c)) l.
  Proof. induction l as [|c l IH]; [reflexivity|]. cbn [flat_map]. rewrite dpoly_app, IH. reflexivity. Qed.
  Lemma pval_flat_map X rho (P : nat -> spoly X) t p m : pval X rho (flat_map P (seq 0 m)) t p = sumk m (fun c => pval X rho (P c) t p).
  Proof. unfold sumk. induction (seq 0 m) as [|c l IH]; [reflexivity|]. cbn [flat_map map fold_right]. rewrite pval_app, IH. reflexivity. Qed.
  Lemma finite_choice {A : Type} (P : nat -> A -> Prop) N (d : A) : (forall k, (k < N)%nat -> exists x, P k x) -> exists U, forall k, (k < N)%nat -> P k (U k).
  Proof.
    intros H. induction N as [|N IH]; [exists (fun _ => d); lia|]. destruct IH as (U & HU); [intros; apply H; lia|]. destruct (H N ltac:(lia)) as (x & Hx).
    exists (fun k => if Nat.eq_dec k N then x else U k). intros k Hk. destruct (Nat.eq_dec k N) as [->|]; auto. apply HU. lia.
  Qed.
  Definition inside (ab : nat * nat) : bool := Nat.ltb (fst ab) n && Nat.ltb (snd ab) n.
  Definition sigmaS (ab : nat * nat) (t : R) (p : point) : R := if inside ab then s (fst ab) (snd ab) t p else 0.
  Lemma inside_true a b : (a < n)%nat -> (b < n)%nat -> inside (a, b) = true.
  Proof. intros Ha Hb. unfold inside. cbn [fst snd]. apply Nat.ltb_lt in Ha, Hb. rewrite Ha, Hb. reflexivity. Qed.
  Lemma inside_elim ab : inside ab = true -> (fst ab < n)%nat /\ (snd ab < n)%nat.
  Proof. unfold inside. intros H. apply andb_prop in H. destruct H. split; apply Nat.ltb_lt; auto. Qed.
  Lemma smooth_families : exists u : nat * nat -> nat -> R -> multi -> point -> R, (forall j, family n T0 T1 (u j)) /\
    forall a b t p, (a < n)%nat -> (b < n)%nat -> on t -> u (a, b) O t none p = g a b t p.
  Proof.
    destruct (smooth_const n T0 T1 0) as (z & Fz & _).
    destruct (finite_choice (fun a U => forall b, (b < n)%nat -> family n T0 T1 (U b) /\ forall t p, on t -> U b O t none p = g a b t p) n (fun _ => z)) as (U & HU).
    { intros a Ha. apply (finite_choice (fun b U => family n T0 T1 U /\ forall t p, on t -> U O t none p = g a b t p) n z). intros b Hb. exact (Hg a b Ha Hb). }
    exists (fun ab => if inside ab then U (fst ab) (snd ab) else z). split.
    - intros ab. destruct (inside ab) eqn:E; auto. apply inside_elim in E. apply HU; tauto.
    - intros a b t p Ha Hb Ht. rewrite inside_true by auto. apply HU; auto.
  Qed.
  Theorem smooth_inverse a b : (a < n)%nat -> (b < n)%nat -> smoothf n T0 T1 (s a b).
  Proof.
    intros Ha Hb. destruct smooth_families as (u & Fu & Vu).
    pose (rho := rhoX (nat * nat) (nat * nat) u sigmaS).
    pose (dl := deltaX (nat * nat) (nat * nat) dS).
    pose (S := fun t p : _ => (fun a b => sigmaS (a, b) t p) : mat).
    pose (Gk := fun k t p => (fun a b => rho (gat k a b) t p) : mat).
    assert (E0 : forall k y t p, pval atom rho (dS k y) t p = - mm n (S t p) (mm n (Gk k t p) (S t p)) (fst y) (snd y)).
    { intros k [i j] t p. unfold dS. cbn [fst snd]. rewrite pval_flat_map. unfold mm at 1. rewrite <- sumk_opp. apply sumk_ext. intros c _. rewrite pval_flat_map. unfold mm.
      rewrite <- sumk_scale, <- sumk_opp. apply sumk_ext. intros d _. rewrite pval_cons, pval_nil, !mval_cons, mval_nil. unfold S, Gk, rho, sat, extra. cbn [rhoX]. ring. }
    assert (GD : forall k a b t p, valid n k -> on t -> (a < n)%nat -> (b < n)%nat -> deriv k (g a b) t p (Gk k t p a b)).
    { intros k i j t p Hk Ht Hi Hj. eapply (deriv_ext T0 T1); [exact Ht|intros t' p' Ht'; exact (Vu i j t' p' Hi Hj Ht')|]. destruct (Fu (i, j)) as [F1 F2 F3].
      destruct k as [l|]; [exact (F1 O t Ht none l p Hk)|exact (F2 O none t p Ht)]. }
    assert (SS : forall t p, same n (S t p) (fun a b => s a b t p)).
    { intros t p i j Hi Hj. unfold S, sigmaS. rewrite inside_true by auto. reflexivity. }
    assert (E1 : forall k l y t p, pval atom rho (dpoly atom dl l (dS k y)) t p =
      mm n (mm n (S t p) (mm n (Gk l t p) (S t p))) (mm n (Gk k t p) (S t p)) (fst y) (snd y)
      + mm n (S t p) (mm n (Gk k t p) (mm n (S t p) (mm n (Gk l t p) (S t p)))) (fst y) (snd y)
      - mm n (S t p) (mm n (fun c d => pval atom rho (dl l (gat k c d)) t p) (S t p)) (fst y) (snd y)).
    { intros k l [i j] t p. unfold dS at 1. cbn [fst snd]. rewrite dpoly_flat_map, pval_flat_map.
      rewrite (mm3 n (mm n (S t p) (mm n (Gk l t p) (S t p))) (Gk k t p) (S t p)), (mm3 n (S t p) (Gk k t p) (mm n (S t p) (mm n (Gk l t p) (S t p)))), (mm3 n (S t p) _ (S t p)).
      rewrite <- sumk_plus, sumk_minus. apply sumk_ext. intros c _. rewrite dpoly_flat_map, pval_flat_map. rewrite <- sumk_plus, sumk_minus. apply sumk_ext. intros d _.
      rewrite !pval_dpoly_cons, !pval_dmono_cons. cbn [dmono dpoly flat_map]. rewrite !pval_nil, !mval_cons, !mval_nil.
      replace (pval atom rho (dl l (sat i c)) t p) with (pval atom rho (dS l (i, c)) t p) by reflexivity. replace (pval atom rho (dl l (sat d j)) t p) with (pval atom rho (dS l (d, j)) t p) by reflexivity.
      rewrite !E0. cbn [fst snd]. change (rho (sat i c) t p) with (S t p i c). change (rho (sat d j) t p) with (S t p d j). change (rho (gat k c d) t p) with (Gk k t p c d). ring. }
    eapply smooth_ext; [|apply (closure_smooth n T0 T1 (nat * nat) (nat * nat) u sigmaS dS Fu)].
    1: { intros t p Ht. instantiate (1 := [(1, [sat a b])]). rewrite pval_cons, pval_nil, mval_cons, mval_nil. cbn [rhoX sat extra]. unfold sigmaS. rewrite inside_true by auto. cbn [fst snd]. ring. }
    - intros k [i j] t p Hk Ht. change (deriv k (sigmaS (i, j)) t p (pval atom rho (dS k (i, j)) t p)). rewrite E0. cbn [fst snd]. destruct (inside (i, j)) eqn:I.
      + destruct (inside_elim _ I) as [Hi Hj]. cbn [fst snd] in Hi, Hj. eapply (deriv_ext T0 T1 k (s i j)); [exact Ht|intros t' p' _; unfold sigmaS; rewrite I; reflexivity|].
        eapply deriv_eq; [apply (deriv_inverse k t p (Gk k t p) Ht); auto|]. f_equal. apply (mm_same n); auto; [intros x y Hx Hy; symmetry; apply SS; auto|].
        apply (mm_same n); [intros x y _ _; reflexivity|intros x y Hx Hy; symmetry; apply SS; auto].
      + eapply (deriv_ext T0 T1 k (fun _ _ => 0)); [exact Ht|intros t' p' _; unfold sigmaS; rewrite I; reflexivity|]. eapply deriv_eq; [apply deriv_const|].
        rewrite mm3. rewrite (sumk_ext n _ (fun _ => 0)); [rewrite sumk_zero; ring|]. intros c Hc. rewrite (sumk_ext n _ (fun _ => 0)); [apply sumk_zero|]. intros d Hd. unfold S, sigmaS.
        unfold inside in I |- *. cbn [fst snd] in *. apply andb_false_iff in I. destruct I as [-> | ->]; rewrite ?andb_false_r; cbn [andb]; ring.
    - intros k l y t p Hk Hl Ht. change (pval atom rho (dpoly atom dl k (dS l y)) t p = pval atom rho (dpoly atom dl l (dS k y)) t p). rewrite !E1.
      rewrite (mm_ext n (S t p) (S t p) (mm n (fun c d => pval atom rho (dl k (gat l c d)) t p) (S t p)) (mm n (fun c d => pval atom rho (dl l (gat k c d)) t p) (S t p))); auto.
      2: { intros x z. apply mm_ext; auto. intros c d. unfold dl, gat. pose proof (stepped_comm (nat * nat) (nat * nat) k l (c, d) O none) as E.
           destruct k as [i'|], l as [i|]; cbn [stepped jet deltaX] in *; rewrite ?pval_cons, ?pval_nil, ?mval_cons, ?mval_nil; cbv [jet] in E; try (injection E as E; rewrite E); reflexivity. }
      assert (A : forall k l, mm n (mm n (S t p) (mm n (Gk k t p) (S t p))) (mm n (Gk l t p) (S t p)) (fst y) (snd y) = mm n (S t p) (mm n (Gk k t p) (mm n (S t p) (mm n (Gk l t p) (S t p)))) (fst y) (snd y)).
      { intros k' l'. rewrite <- mm_assoc. apply mm_ext; auto. intros. symmetry. apply mm_assoc. }
      rewrite !A. ring.
    - intros [i j]. exists (Rmax 0 B). intros t p Ht. unfold sigmaS. destruct (inside (i, j)) eqn:I.
      + destruct (inside_elim _ I) as [Hi Hj]. apply Rle_trans with B; [apply HB; auto|apply Rmax_r].
      + rewrite Rabs_R0. apply Rmax_l.
  Qed.
End Inverse.
