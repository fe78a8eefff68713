(** The statements of BurgersProps. *)
From Coq Require Import List Arith Ring ZArith QArith Qcanon Bool String Permutation Lia Reals Lra.
From Verif Require Import PyBase PyBaseFacts PartialOrderModel TreeModel Reynolds ReynoldsInst PKFModel PKFSpec PKFTimeSpec PKFRateSpec PKFAlg PKFInst PKFInstMore
  PKFLine BurgersModel BurgersSpec BurgersInst BurgersProofs.
Import ListNotations.
Close Scope R_scope.
Close Scope Q_scope.
Close Scope Qc_scope.
Close Scope Z_scope.
Open Scope nat_scope.
Open Scope string_scope.
Open Scope list_scope.

Lemma closed_main : forall enum enumD enumC enumF enumU enumS, rearrangements enum enumD enumC enumF enumU -> (forall l, Permutation (enumS l) l) ->
  exists sys, closed_in_aspect enum enumD enumC enumF enumU enumS = Ok sys
    /\ map fst sys = map time_derivative [FField 0; FVar 0; FAsp 0 0 0]
    /\ (forall q l, In q sys -> ~ averaged_in l (snd q))
    /\ forall (A : RAlg) (E : env A) iV is, statistics ["x"] 1 E -> tensor_is ["x"] 1 E FAsp FInvAsp 1 ->
         (e_fn E (FVar 0) * iV = 1)%ra -> (e_fn E (FAsp 0 0 0) * is = 1)%ra ->
         map (fun q => pv E (snd q)) sys = published (e_cst E 0) (e_fn E (FField 0)) (e_fn E (FVar 0)) iV (e_fn E (FAsp 0 0 0)) is.
Proof.
  intros enum enumD enumC enumF enumU enumS HR HS. exists (system aspect_closed). split; [apply the_closed; assumption|].
  split; [reflexivity|]. split; [exact closed_averages|]. intros A E iV is HE HT HV HI. apply closed_published; assumption.
Qed.

Section Error.
  Context {A : RAlg}.
  Add Ring A_ringBM : (c_th A).
  Open Scope ra_scope.
  Lemma sub_of_add (x y z : A) : x = y + z -> y = x - z. Proof. intros ->. ring. Qed.
  Lemma sub_zero (x y : A) : x - y = 0 <-> x = y.
  Proof. split; [intros H; transitivity (x - y + y); [ring|]; rewrite H; ring|intros ->; ring]. Qed.
End Error.

Lemma error_main : forall enum enumD enumC enumF enumU enumS, rearrangements enum enumD enumC enumF enumU -> (forall l, Permutation (enumS l) l) ->
  exists sys, closed_in_aspect enum enumD enumC enumF enumU enumS = Ok sys
    /\ forall (A : RAlg) (E : env A), statistics ["x"] 1 E -> tensor_is ["x"] 1 E FAsp FInvAsp 1 ->
         map (fun q => pv E (snd q)) sys
         = [ rate E ["x"] dynamics (FField 0); rate E ["x"] dynamics (FVar 0);
             (rate E ["x"] dynamics (FAsp 0 0 0)
              - (1 + 1) * e_cst E 0 * (e_fn E (FAsp 0 0 0) * e_fn E (FAsp 0 0 0)) * defect E)%ra ].
Proof.
  intros enum enumD enumC enumF enumU enumS HR HS. exists (system aspect_closed). split; [apply the_closed; assumption|].
  intros A E HE HT. unfold system. cbn [map snd]. destruct (open_rates E HE HT) as (H1 & H2 & H3). rewrite H1, H2. do 2 f_equal.
  f_equal. apply sub_of_add. change (FAsp 0 0 0) with s. rewrite <- H3. apply open_closed; assumption.
Qed.

Lemma p18_main : forall (A : RAlg) (E : env A), statistics ["x"] 1 E -> tensor_is ["x"] 1 E FAsp FInvAsp 1 ->
  pv E p18_aspect = pv E p18_metric /\ (closure_holds E [(term, p18_aspect)] <-> defect E = c0).
Proof.
  intros A E HE HT. split; [apply p18_forms; assumption|]. rewrite <- term_defect by assumption. rewrite sub_zero. split.
  - intros H. apply H. left. reflexivity.
  - intros H l v [Hin|[]]. injection Hin as <- <-. exact H.
Qed.

Lemma no_exact : forall v, only 1 (fun f => is_random f = false) (fun _ => False) v ->
  exists (A : RAlg) (E : env A), statistics ["x"] 1 E /\ tensor_is ["x"] 1 E FAsp FInvAsp 1 /\ EE (jprod E term) <> pv E v.
Proof.
  intros v Hv.
  assert (Hs : forall k, statistics ["x"] 1 (circle k)) by (intros k; exact (world_statistics k (h_q 1) (h_q 1))).
  assert (Ht : forall k, tensor_is ["x"] 1 (circle k) FAsp FInvAsp 1) by (intros k; exact (world_aspect k (h_q 1) (h_q 1) one_one)).
  assert (Hval : forall k, pv (circle k) v = pv (circle 0%Qc) v).
  { intros k. apply (deterministic_value Circles (circle k) (circle 0%Qc) 1 v Hv); try reflexivity.
    intros f Hf. destruct f; try reflexivity; discriminate. }
  assert (G : forall k, EE (jprod (circle k) term) = cq (r := Circles) (k * k + 1)%Qc).
  { intros k. rewrite term_value, (E_fourth _ (Hs k)). change (e_fn (circle k) g) with (cq (r := Circles) 1 * cq (r := Circles) 1)%ra.
    rewrite <- cq_mul, dd_cq, dd_0, circle_second. apply mul_0_sub. }
  pose (y := pv (circle 0%Qc) v). 
  assert (N : cq (r := Circles) (0 * 0 + 1)%Qc <> cq (r := Circles) (1 * 1 + 1)%Qc).
  { intros H. apply (f_equal (fun f : rf => f (true, true) O)) in H. cbn in H. discriminate H. }
  assert (Dec : cq (r := Circles) (0 * 0 + 1)%Qc <> y \/ cq (r := Circles) (1 * 1 + 1)%Qc <> y).
  { pose (z := (y : rf) (true, true) O). destruct (Qc_eq_dec (0 * 0 + 1)%Qc z) as [Hz|Hz].
    - right. intros H. apply (f_equal (fun f : rf => f (true, true) O)) in H. fold z in H. rewrite <- Hz in H. cbn in H. discriminate H.
    - left. intros H. apply (f_equal (fun f : rf => f (true, true) O)) in H. fold z in H. apply Hz. exact H. }
  destruct Dec as [H|H].
  - exists Circles, (circle 0%Qc). rewrite G. auto.
  - exists Circles, (circle 1%Qc). rewrite G, Hval. auto.
Qed.

Lemma constructor_raises (V : Type) (code : res (list (string * V))) self n fact module builtins inst :
  find "ClosedPKFBurgers" module = None -> find "ClosedPKFBurgers" builtins = None ->
  init code self n fact module builtins inst = Err (match code with Ok _ => NameError | Err e => e end).
Proof. intros Hm Hb. unfold init, factory. destruct code; cbn [bind]; [|reflexivity]. cbn [app lookup find]. cbn. rewrite Hm, Hb. reflexivity. Qed.

(** the Gaussian correlation function *)
Section Gauss.
  Open Scope R_scope.
  Variable gg : R.
  Definition rho (h : R) : R := exp (- gg * h² / 2).
  Lemma rho_d p dp h : derivable_pt_lim p h dp -> derivable_pt_lim (fun h => p h * rho h) h (dp * rho h + p h * (- gg * h * rho h)).
  Proof.
    intros Hp. assert (Hr : derivable_pt_lim rho h (- gg * h * rho h)).
    { unfold rho. replace (- gg * h * exp (- gg * h² / 2)) with (exp (- gg * h² / 2) * (- gg * h)) by ring.
      apply (derivable_pt_lim_comp (fun h => - gg * h² / 2) exp).
      - replace (fun h => - gg * h² / 2) with (mult_real_fct (- gg / 2) Rsqr).
        + replace (- gg * h) with (- gg / 2 * (2 * h)) by field. apply derivable_pt_lim_scal, derivable_pt_lim_Rsqr.
        + apply FunctionalExtensionality.functional_extensionality. intros x. unfold mult_real_fct. field.
      - apply derivable_pt_lim_exp. }
    exact (derivable_pt_lim_mult p rho h _ _ Hp Hr).
  Qed.
  Lemma mono_d (c : R) n h : derivable_pt_lim (fun h => c * h ^ n) h (c * (INR n * h ^ pred n)).
  Proof. exact (derivable_pt_lim_scal (fun h => h ^ n) c h _ (derivable_pt_lim_pow h n)). Qed.
  Lemma gaussian_main : exists r1 r2 r3 r4,
    (forall h, derivable_pt_lim rho h (r1 h)) /\ (forall h, derivable_pt_lim r1 h (r2 h))
    /\ (forall h, derivable_pt_lim r2 h (r3 h)) /\ (forall h, derivable_pt_lim r3 h (r4 h))
    /\ rho 0 = 1 /\ r1 0 = 0 /\ r2 0 = - gg /\ r3 0 = 0 /\ r4 0 = 3 * (gg * gg).
  Proof.
    exists (fun h => - gg * h ^ 1 * rho h), (fun h => (gg * gg * h ^ 2 + - gg * h ^ 0) * rho h),
      (fun h => (- (gg * gg * gg) * h ^ 3 + 3 * (gg * gg) * h ^ 1) * rho h),
      (fun h => (gg * gg * gg * gg * h ^ 4 + - (6 * (gg * gg * gg)) * h ^ 2 + 3 * (gg * gg)) * rho h).
    assert (R0 : rho 0 = 1) by (unfold rho, Rsqr; replace (- gg * (0 * 0) / 2) with 0 by field; apply exp_0).
    split; [|split; [|split; [|split]]].
    - intros h. replace rho with (fun h => 1 * h ^ 0 * rho h) at 1.
      + replace (- gg * h ^ 1 * rho h) with (1 * (INR 0 * h ^ pred 0) * rho h + 1 * h ^ 0 * (- gg * h * rho h)) by (cbn; ring).
        apply (rho_d (fun h => 1 * h ^ 0)), mono_d.
      + apply FunctionalExtensionality.functional_extensionality. intros x. cbn. ring.
    - intros h. replace ((gg * gg * h ^ 2 + - gg * h ^ 0) * rho h) with (- gg * (INR 1 * h ^ pred 1) * rho h + - gg * h ^ 1 * (- gg * h * rho h)) by (cbn; ring).
      apply (rho_d (fun h => - gg * h ^ 1)), mono_d.
    - intros h. replace ((- (gg * gg * gg) * h ^ 3 + 3 * (gg * gg) * h ^ 1) * rho h)
        with ((gg * gg * (INR 2 * h ^ pred 2) + - gg * (INR 0 * h ^ pred 0)) * rho h + (gg * gg * h ^ 2 + - gg * h ^ 0) * (- gg * h * rho h)) by (cbn; ring).
      apply (rho_d (fun h => gg * gg * h ^ 2 + - gg * h ^ 0)). apply (derivable_pt_lim_plus (fun h => gg * gg * h ^ 2) (fun h => - gg * h ^ 0)); apply mono_d.
    - intros h. replace ((gg * gg * gg * gg * h ^ 4 + - (6 * (gg * gg * gg)) * h ^ 2 + 3 * (gg * gg)) * rho h)
        with ((- (gg * gg * gg) * (INR 3 * h ^ pred 3) + 3 * (gg * gg) * (INR 1 * h ^ pred 1)) * rho h
              + (- (gg * gg * gg) * h ^ 3 + 3 * (gg * gg) * h ^ 1) * (- gg * h * rho h)) by (cbn; ring).
      apply (rho_d (fun h => - (gg * gg * gg) * h ^ 3 + 3 * (gg * gg) * h ^ 1)).
      apply (derivable_pt_lim_plus (fun h => - (gg * gg * gg) * h ^ 3) (fun h => 3 * (gg * gg) * h ^ 1)); apply mono_d.
    - rewrite R0. cbn. repeat split; ring.
  Qed.
End Gauss.
