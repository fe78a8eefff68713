(** An ensemble of waves sheared by the wind (sin y, 0), for the examples of C114. *)
From Coq Require Import List Arith ZArith Bool Reals String Lia Lra Psatz FunctionalExtensionality.
From Verif Require Import PyBase PyBaseFacts Scalars FieldFacts FDExprSpec FDReal ConsistSpec ConsistMain LineCases AdvectModel AdvectSpec AdvectCases WindSpec WindCases
  StatSmooth StatInverse StatSpec.
Import ListNotations.
Open Scope R_scope.

(** the time, the waves of phase x - t sin y, the waves of phase y *)
Inductive wave := At | Cf | Sf | Cy | Sy.
Definition phase (t : R) (p : point) : R := p O - t * sin (p 1%nat).
Definition wval (x : wave) (t : R) (p : point) : R :=
  match x with At => t | Cf => cos (phase t p) | Sf => sin (phase t p) | Cy => cos (p 1%nat) | Sy => sin (p 1%nat) end.
Definition wdelta (k : option nat) (x : wave) : list (R * list wave) :=
  match k with
  | None => match x with At => [(1, [])] | Cf => [(1, [Sf; Sy])] | Sf => [(-1, [Cf; Sy])] | _ => [] end
  | Some O => match x with Cf => [(-1, [Sf])] | Sf => [(1, [Cf])] | _ => [] end
  | Some 1%nat => match x with Cf => [(1, [Sf; At; Cy])] | Sf => [(-1, [Cf; At; Cy])] | Cy => [(-1, [Sy])] | Sy => [(1, [Cy])] | _ => [] end
  | Some _ => []
  end.
Local Notation wpoly := (list (R * list wave)).
Local Notation pv P := (pval wave wval P).
Lemma dcomp_sin f x l : derivable_pt_lim f x l -> derivable_pt_lim (fun s => sin (f s)) x (cos (f x) * l).
Proof. intros H. apply (derivable_pt_lim_comp f sin x l (cos (f x))); [exact H|apply derivable_pt_lim_sin]. Qed.
Lemma dcomp_cos f x l : derivable_pt_lim f x l -> derivable_pt_lim (fun s => cos (f s)) x (- sin (f x) * l).
Proof. intros H. apply (derivable_pt_lim_comp f cos x l (- sin (f x))); [exact H|apply derivable_pt_lim_cos]. Qed.
Lemma phase_deriv k t p : valid 2 k -> deriv k phase t p (match k with None => - sin (p 1%nat) | Some O => 1 | Some _ => - (t * cos (p 1%nat)) end).
Proof.
  intros Hk. destruct k as [[|[|k]]|]; [| |cbn in Hk; lia|]; unfold deriv, phase, at_coord; cbn -[sin cos].
  - replace 1 with (1 - 0) by ring. apply (derivable_pt_lim_minus (fun s => s) (fun _ => t * sin (p 1%nat))); [apply derivable_pt_lim_id|apply derivable_pt_lim_const].
  - replace (- (t * cos (p 1%nat))) with (0 - t * cos (p 1%nat)) by ring. apply (derivable_pt_lim_minus (fun _ => p O) (fun s => t * sin s)); [apply derivable_pt_lim_const|].
    apply (derivable_pt_lim_scal sin). apply derivable_pt_lim_sin.
  - replace (- sin (p 1%nat)) with (0 - (1 * sin (p 1%nat) + t * 0)) by ring. apply (derivable_pt_lim_minus (fun _ => p O) (fun s => s * sin (p 1%nat))); [apply derivable_pt_lim_const|].
    apply (derivable_pt_lim_mult (fun s => s) (fun _ => sin (p 1%nat))); [apply derivable_pt_lim_id|apply derivable_pt_lim_const].
Qed.
Lemma deriv_val k f t p l l' : deriv k f t p l -> l = l' -> deriv k f t p l'.
Proof. intros H <-. exact H. Qed.
Lemma deriv_cos k f t p l : deriv k f t p l -> deriv k (fun t p => cos (f t p)) t p (- sin (f t p) * l).
Proof.
  destruct k as [i|]; unfold deriv; intros H.
  - assert (Q : f t (@at_coord RF p i (p i)) = f t p) by (f_equal; apply functional_extensionality; intros j; unfold at_coord; destruct (Nat.eq_dec i j) as [<-|]; reflexivity).
    pose proof (dcomp_cos _ _ _ H) as X. cbv beta in X. rewrite Q in X. exact X.
  - exact (dcomp_cos _ _ _ H).
Qed.
Lemma deriv_sin k f t p l : deriv k f t p l -> deriv k (fun t p => sin (f t p)) t p (cos (f t p) * l).
Proof.
  destruct k as [i|]; unfold deriv; intros H.
  - assert (Q : f t (@at_coord RF p i (p i)) = f t p) by (f_equal; apply functional_extensionality; intros j; unfold at_coord; destruct (Nat.eq_dec i j) as [<-|]; reflexivity).
    pose proof (dcomp_sin _ _ _ H) as X. cbv beta in X. rewrite Q in X. exact X.
  - exact (dcomp_sin _ _ _ H).
Qed.
Lemma second_deriv k t p : valid 2 k -> deriv k (fun _ p => p 1%nat) t p (match k with Some 1%nat => 1 | _ => 0 end).
Proof. intros Hk. destruct k as [[|[|k]]|]; [| |cbn in Hk; lia|]; unfold deriv, at_coord; cbn; try apply derivable_pt_lim_const. apply derivable_pt_lim_id. Qed.
Lemma wave_deriv k x t p : valid 2 k -> deriv k (wval x) t p (pv (wdelta k x) t p).
Proof.
  intros Hk. destruct x; cbn [wval].
  - destruct k as [[|[|k]]|]; [| |cbn in Hk; lia|]; unfold deriv; cbn; try apply derivable_pt_lim_const. eapply derivable_pt_lim_ext; [|eapply dl_eq; [|apply derivable_pt_lim_id]]; [reflexivity|ring].
  - eapply deriv_val; [apply (deriv_cos k phase), phase_deriv, Hk|]. destruct k as [[|[|k]]|]; [| |cbn in Hk; lia|]; cbn -[sin cos]; ring.
  - eapply deriv_val; [apply (deriv_sin k phase), phase_deriv, Hk|]. destruct k as [[|[|k]]|]; [| |cbn in Hk; lia|]; cbn -[sin cos]; ring.
  - eapply deriv_val; [apply (deriv_cos k (fun _ p => p 1%nat)), second_deriv, Hk|]. destruct k as [[|[|k]]|]; [| |cbn in Hk; lia|]; cbn -[sin cos]; ring.
  - eapply deriv_val; [apply (deriv_sin k (fun _ p => p 1%nat)), second_deriv, Hk|]. destruct k as [[|[|k]]|]; [| |cbn in Hk; lia|]; cbn -[sin cos]; ring.
Qed.
Lemma wave_comm k l x t p : valid 2 k -> valid 2 l -> pv (dpoly wave wdelta k (wdelta l x)) t p = pv (dpoly wave wdelta l (wdelta k x)) t p.
Proof.
  intros Hk Hl. destruct k as [[|[|k]]|]; [| |cbn in Hk; lia|]; (destruct l as [[|[|l]]|]; [| |cbn in Hl; lia|]); destruct x; cbn -[sin cos]; ring.
Qed.
Lemma wave_bounded x : exists B, forall t p, -3 < t < 3 -> Rabs (wval x t p) <= B.
Proof.
  exists 3. intros t p Ht. assert (S : forall z, Rabs (sin z) <= 3) by (intros z; pose proof (SIN_bound z); apply Rabs_le; lra).
  assert (C : forall z, Rabs (cos z) <= 3) by (intros z; pose proof (COS_bound z); apply Rabs_le; lra).
  destruct x; cbn [wval]; auto. apply Rabs_le. lra.
Qed.
Definition waves (P : wpoly) (m : nat) (t : R) (a : multi) (p : point) : R := pv (fam 2 wave wdelta P m a) t p.
Lemma waves_family P : family 2 (-3) 3 (waves P).
Proof. apply (poly_family 2 (-3) 3 wave wval wdelta); [intros; apply wave_deriv; auto|intros; apply wave_comm; auto|apply wave_bounded]. Qed.
Lemma waves_deriv k P t p : valid 2 k -> deriv k (pv P) t p (pv (dpoly wave wdelta k P) t p).
Proof.
  intros Hk. apply (dpoly_deriv 2 (t - 1) (t + 1) wave wval wdelta); auto; [intros; apply wave_deriv; auto|lra].
Qed.
Lemma waves_none P t p : waves P O t none p = pv P t p.
Proof. reflexivity. Qed.
Lemma wave_period x : (forall t, periodic [2 * PI; 2 * PI] (wval x t)).
Proof.
  intros t i p L H. assert (S : forall z, sin (z + 2 * PI) = sin z) by (intros z; rewrite <- (sin_period z 1); f_equal; cbn; ring).
  assert (C : forall z, cos (z + 2 * PI) = cos z) by (intros z; rewrite <- (cos_period z 1); f_equal; cbn; ring).
  destruct i as [|[|i]]; cbn in H; [| |destruct i; discriminate]; injection H as <-; destruct x; unfold wval, phase, at_coord; cbn -[sin cos PI]; rewrite ?S, ?C; try reflexivity.
  - replace (p O + 2 * PI - t * sin (p 1%nat)) with (p O - t * sin (p 1%nat) + 2 * PI) by ring. apply C.
  - replace (p O + 2 * PI - t * sin (p 1%nat)) with (p O - t * sin (p 1%nat) + 2 * PI) by ring. apply S.
Qed.
Lemma waves_period P t : periodic [2 * PI; 2 * PI] (pv P t).
Proof.
  intros i p L H. induction P as [|[c m] P IH]; [reflexivity|]. rewrite !pval_cons, IH. f_equal. f_equal.
  clear IH. induction m as [|x m IH]; [reflexivity|]. rewrite !mval_cons, IH. f_equal. apply wave_period, H.
Qed.

(** the wind (sin y, 0) *)
Definition shear_wind (k : nat) (a : multi) (p : point) : R := match k with O => waves [(1, [Sy])] O 0 a p | _ => 0 end.
Lemma shear_smooth : smooth_winds 2 [2 * PI; 2 * PI] shear_wind (fun k => match k with O => 1 | _ => 0 end).
Proof.
  pose proof (waves_family [(1, [Sy])]) as F. split.
  - intros k Hk. destruct k as [|k]; [exact (fa_space _ _ _ _ F O 0 ltac:(lra))|]. intros a i p Hi. apply derivable_pt_lim_const.
  - intros k Hk. destruct k as [|k]; [exact (waves_period [(1, [Sy])] 0)|]. intros i p L H. reflexivity.
  - intros k a Hk. destruct k as [|k]; [|exists 0; intros; cbn; rewrite Rabs_R0; lra]. destruct (fa_bounded _ _ _ _ F O a) as (B & HB). exists B. intros p. apply HB. lra.
  - intros k p Hk. destruct k as [|k]; [|cbn; rewrite Rabs_R0; lra]. unfold shear_wind. rewrite waves_none. rewrite pval_cons, pval_nil, mval_cons, mval_nil. cbn [wval].
    pose proof (SIN_bound (p 1%nat)). apply Rabs_le. lra.
Qed.
Lemma shear_values p : shear_wind O none p = sin (p 1%nat) /\ shear_wind 1 none p = 0.
Proof. split; [|reflexivity]. unfold shear_wind. rewrite waves_none, pval_cons, pval_nil, mval_cons, mval_nil. cbn [wval]. ring. Qed.

(** eight members of the same weight around cos (x - t sin y) *)
Definition deviation (r : nat) : R * wave := nth r [(sqrt 2, Cf); (- sqrt 2, Cf); (sqrt 2, Sf); (- sqrt 2, Sf); (sqrt 2, Cy); (- sqrt 2, Cy); (sqrt 2, Sy); (- sqrt 2, Sy)] (0, At).
Definition deviations (r : nat) : wpoly := [(fst (deviation r), [snd (deviation r)])].
Definition member (r : nat) : wpoly := (1, [Cf]) :: deviations r.
Definition sheared (r m : nat) (t : R) (a : multi) (p : point) : R := waves (member r) m t a p.
Definition weight (_ : nat) : R := 1 / 8.
Definition sheared_aspect (a b : nat) (t : R) (p : point) : R :=
  match a, b with
  | O, O => 2 * (1 + t * t * (cos (p 1%nat) * cos (p 1%nat)))
  | O, 1%nat | 1%nat, O => 2 * (t * cos (p 1%nat))
  | _, _ => 2
  end.
Local Notation c := (fun r t p => sheared r O t none p).
Lemma root2 : sqrt 2 * sqrt 2 = 2. Proof. apply sqrt_sqrt. lra. Qed.
Lemma pyth z : cos z * cos z + sin z * sin z = 1.
Proof. pose proof (sin2_cos2 z) as H. unfold Rsqr in H. lra. Qed.
Lemma sheared_mean t p : ens_mean 8 weight c t p = cos (phase t p).
Proof. unfold ens_mean, average, weight, sheared. cbn -[sqrt sin cos phase]. field. Qed.
Lemma sheared_error r t p : ens_error 8 weight c r t p = pv (deviations r) t p.
Proof. unfold ens_error. rewrite sheared_mean. unfold sheared. rewrite waves_none. unfold member. rewrite pval_cons, mval_cons, mval_nil. cbn [wval]. ring. Qed.
Lemma sheared_variance t p : ens_variance 8 weight c t p = 1.
Proof.
  unfold ens_variance, average. rewrite (map_ext _ (fun r => weight r * (pv (deviations r) t p * pv (deviations r) t p))) by (intros r; rewrite sheared_error; reflexivity).
  unfold weight. cbn -[sqrt sin cos phase]. pose proof (pyth (phase t p)) as P1. pose proof (pyth (p 1%nat)) as P2. pose proof root2 as R2.
  set (q := sqrt 2) in *. set (a := cos (phase t p)) in *. set (b := sin (phase t p)) in *. set (x := cos (p 1%nat)) in *. set (y := sin (p 1%nat)) in *.
  transitivity ((q * q) / 4 * (a * a + b * b) + (q * q) / 4 * (x * x + y * y)); [field|]. rewrite P1, P2, R2. field.
Qed.
Lemma sheared_normal r t p : ens_normal 8 weight c r t p = pv (deviations r) t p.
Proof. unfold ens_normal. rewrite sheared_variance, sqrt_1, sheared_error. field. Qed.

Definition slope_of (r a : nat) (t : R) (p : point) : R := pv (dpoly wave wdelta (Some a) (deviations r)) t p.
Lemma sheared_metric a b t p : (a < 2)%nat -> (b < 2)%nat -> average 8 weight (fun r => slope_of r a t p * slope_of r b t p) =
  match a, b with
  | O, O => 1 / 2
  | O, S _ | S _, O => - (t * cos (p 1%nat)) / 2
  | S _, S _ => (1 + t * t * (cos (p 1%nat) * cos (p 1%nat))) / 2
  end.
Proof.
  intros Ha Hb. unfold average, weight, slope_of.
  pose proof (pyth (phase t p)) as P1. pose proof (pyth (p 1%nat)) as P2. pose proof root2 as R2.
  destruct a as [|[|a]]; [| |lia]; (destruct b as [|[|b]]; [| |lia]); cbn -[sqrt sin cos phase];
  set (q := sqrt 2) in *; set (f := cos (phase t p)) in *; set (g := sin (phase t p)) in *; set (x := cos (p 1%nat)) in *; set (y := sin (p 1%nat)) in *.
  - transitivity ((q * q) / 4 * (f * f + g * g)); [field|]. rewrite P1, R2. field.
  - transitivity (- ((q * q) / 4 * (f * f + g * g) * (t * x))); [field|]. rewrite P1, R2. field.
  - transitivity (- ((q * q) / 4 * (f * f + g * g) * (t * x))); [field|]. rewrite P1, R2. field.
  - transitivity ((q * q) / 4 * (f * f + g * g) * (t * t * (x * x)) + (q * q) / 4 * (x * x + y * y)); [field|]. rewrite P1, P2, R2. field.
Qed.
Lemma sheared_carried : carried_ensemble 2 [2 * PI; 2 * PI] shear_wind (-1) 2 8 weight sheared sheared_aspect.
Proof.
  split.
  - intros r Hr. pose proof (waves_family (member r)) as F. split.
    + intros m t Ht. apply (fa_space _ _ _ _ F). lra.
    + intros m a t p Ht. apply (fa_time _ _ _ _ F). lra.
    + intros t p Ht. unfold carried_by. cbn [seq map fold_right]. rewrite (proj1 (shear_values p)), (proj2 (shear_values p)).
      unfold sheared, waves. do 8 (destruct r as [|r]; [cbn -[sqrt sin cos phase]; ring|]). lia.
    + intros t Ht. exact (waves_period (member r) t).
    + intros m a. destruct (fa_bounded _ _ _ _ F m a) as (B & HB). exists B. intros t p Ht. apply HB. lra.
  - exists 1. split; [lra|]. intros t p _. rewrite sheared_variance. lra.
  - exists slope_of. split.
    + intros r a t p Hr Ha Ht. assert (Q : (fun x : R => ens_normal 8 weight c r t (@at_coord RF p a x)) = (fun x : R => pv (deviations r) t (@at_coord RF p a x))).
      { apply functional_extensionality. intros x. apply sheared_normal. }
      rewrite Q. exact (waves_deriv (Some a) (deviations r) t p Ha).
    + intros t p a b Ht Ha Hb. cbn [seq map fold_right]. rewrite !sheared_metric by lia.
      destruct a as [|[|a]]; [| |lia]; (destruct b as [|[|b]]; [| |lia]); cbn -[cos]; split; field.
  - exists 10. intros a b t p Ha Hb Ht. pose proof (COS_bound (p 1%nat)) as C. set (x := cos (p 1%nat)) in *.
    destruct a as [|[|a]]; [| |lia]; (destruct b as [|[|b]]; [| |lia]); unfold sheared_aspect; fold x; apply Rabs_le.
    + assert (0 <= t * t <= 4) by nra. assert (0 <= x * x <= 1) by nra. nra.
    + nra.
    + nra.
    + lra.
Qed.
