(** Properties of the finite-difference engine: C21-C25. *)
From Coq Require Import List Arith ZArith Lia Bool Reals Lra QArith Qcanon Permutation.
From Verif Require Import PyBase Scalars FieldFacts FornbergModel FDSpec FornbergProofs FDProofs FDReal
  FDExprModel FDExprSpec FDExprProofs FDSubsProofs.
Import ListNotations.
Close Scope Q_scope. Close Scope Qc_scope. Close Scope R_scope. Open Scope nat_scope.

(** C21: for every order the emitted stencil is the central difference *)
Theorem C21_stencil_is_central_difference :
  forall (K : Fld) (m : nat) (xi h : K), h <> f0 -> stencil m xi h = Some (central m h).
Proof. exact stencil_central. Qed.
Print Assumptions C21_stencil_is_central_difference.

(** opposite displacements carry weights equal up to the sign (-1)^m *)
Theorem C21_stencil_symmetric :
  forall (K : Fld) (m : nat) (xi h : K) l, h <> f0 -> stencil m xi h = Some l ->
    rev l = map (fun kw => ((- fst kw)%Z, fmul (sgn m) (snd kw))) l.
Proof.
  intros K m xi h l Hh E. rewrite (stencil_central K m xi h Hh) in E. inversion E. apply central_rev.
Qed.
Print Assumptions C21_stencil_symmetric.

Example C21_example_third :
  @stencil QcF 3 (qc 5 1) (qc 1 2) =
  Some [((-3)%Z, qc (-1) 1); ((-1)%Z, qc 3 1); (1%Z, qc (-3) 1); (3%Z, qc 1 1)].
Proof.
  rewrite (stencil_central QcF) by discriminate. unfold central. cbn [seq map Nat.even].
  repeat (f_equal; try (apply Qc_is_canon; reflexivity)).
Qed.

(** C22 *)
Theorem C22_exact_on_polynomials :
  forall (K : Fld) (m : nat) (c : list K) (x h : K) l,
    h <> f0 -> length c <= m + 2 -> stencil m x h = Some l ->
    apply_stencil l (poly c) x h = poly (Nat.iter m pderiv c) x.
Proof.
  intros K m c x h l Hh Hl E. rewrite (stencil_central K m x h Hh) in E. inversion E; subst.
  apply central_exact; auto.
Qed.
Print Assumptions C22_exact_on_polynomials.

(** 7 + 2x + x^2 + 5x^3 has second derivative 2 + 30x *)
Example C22_example : Nat.iter 2 (@pderiv QcF) [qc 7 1; qc 2 1; qc 1 1; qc 5 1] = [qc 2 1; qc 30 1].
Proof.
  cbn [Nat.iter nat_rect pderiv pd_from].
  repeat (f_equal; try (apply Qc_is_canon; reflexivity)).
Qed.
(** the bound on the degree cannot be dropped: the second-order stencil is not exact on x^4 *)
Theorem C22_not_exact_beyond :
  exists (c : list QcF) l, length c = 5 /\ @stencil QcF 2 f0 f1 = Some l /\
    apply_stencil l (poly c) f0 f1 <> poly (Nat.iter 2 pderiv c) f0.
Proof.
  exists [f0; f0; f0; f0; f1], (@central QcF 2 f1). split; [reflexivity|]. split.
  - apply (stencil_central QcF). discriminate.
  - intros H. apply (f_equal (fun q : Qc => this q)) in H. vm_compute in H. discriminate.
Qed.
Print Assumptions C22_not_exact_beyond.

(** C23: explicit constant m/6 times a bound of the (m+2)-th derivative *)
Theorem C23_second_order_consistency :
  forall (m : nat) (x h B : R) (D : nat -> R -> R) (l : list (Z * R)),
    h <> 0%R ->
    (forall k y, k < m + 2 -> (Rabs (y - x) <= INR m * Rabs h)%R -> derivable_pt_lim (D k) y (D (S k) y)) ->
    (forall y, (Rabs (y - x) <= INR m * Rabs h)%R -> (Rabs (D (m + 2)%nat y) <= B)%R) ->
    @stencil RF m x h = Some l ->
    (Rabs (@apply_stencil RF l (D O) x h - D m x) <= INR m / 6 * B * h ^ 2)%R.
Proof. exact stencil_consistent. Qed.
Print Assumptions C23_second_order_consistency.

Theorem C23_convergence :
  forall (m : nat) (x : R) (D : nat -> R -> R) (B r : R),
    (0 < r)%R ->
    (forall k y, k < m + 2 -> (Rabs (y - x) <= r)%R -> derivable_pt_lim (D k) y (D (S k) y)) ->
    (forall y, (Rabs (y - x) <= r)%R -> (Rabs (D (m + 2)%nat y) <= B)%R) ->
    forall eps, (0 < eps)%R -> exists delta, (0 < delta)%R /\
      forall h l, h <> 0%R -> (Rabs h < delta)%R -> @stencil RF m x h = Some l ->
        (Rabs (@apply_stencil RF l (D O) x h - D m x) < eps)%R.
Proof. exact stencil_converges. Qed.
Print Assumptions C23_convergence.

(** the exponential meets the hypotheses at every order *)
Example C23_example_exp : forall m x h l, h <> 0%R -> @stencil RF m x h = Some l ->
  (Rabs (@apply_stencil RF l exp x h - exp x) <= INR m / 6 * exp (x + INR m * Rabs h) * h ^ 2)%R.
Proof.
  intros m x h l Hh E.
  apply (C23_second_order_consistency m x h (exp (x + INR m * Rabs h)) (fun _ => exp) l Hh); auto.
  - intros. apply derivable_pt_lim_exp.
  - intros y Hy. rewrite Rabs_right by (left; apply exp_pos).
    assert (y <= x + INR m * Rabs h)%R.
    { pose proof (Rle_abs (y - x)). lra. }
    destruct H as [H| ->]; [left; apply exp_increasing; auto|right; reflexivity].
Qed.

(** C24 *)
Theorem C24_mixed_is_tensor_product :
  forall (K : Fld) (x dx : nat -> K) (ord : list datom -> list datom),
    (forall l, Permutation (ord l) l) ->
    forall (s : list Z) (ds : list (nat * nat)),
      (forall i o, In (i, o) ds -> dx i <> f0 /\ i < length s) ->
      forall fuel, length ds < fuel ->
      exists l, finite_difference_derivative x dx ord fuel (s, ds) = Ok l
        /\ no_derivative l
        /\ forall U, terms_value x dx U l = partials dx ds U (displaced x dx s).
Proof.
  intros K x dx ord Hp s ds Hd fuel Hf. exists (tensor K dx s ds). split; [|split].
  - apply fdd_tensor; auto. intros i o I. apply (Hd i o I).
  - intros t Ht. eapply tensor_no_derivative; eauto.
  - intros U. apply tensor_value. intros i o I. apply (Hd i o I).
Qed.
Print Assumptions C24_mixed_is_tensor_product.

Theorem C24_variable_order_irrelevant :
  forall (K : Fld) (x dx : nat -> K) (ord ord' : list datom -> list datom),
    (forall l, Permutation (ord l) l) -> (forall l, Permutation (ord' l) l) ->
    forall (s : list Z) (ds ds' : list (nat * nat)),
      Permutation ds ds' ->
      (forall i o, In (i, o) ds -> dx i <> f0 /\ i < length s) ->
      forall fuel l l',
      finite_difference_derivative x dx ord fuel (s, ds) = Ok l ->
      finite_difference_derivative x dx ord' fuel (s, ds') = Ok l' ->
      length ds < fuel ->
      forall U, terms_value x dx U l = terms_value x dx U l'.
Proof.
  intros K x dx ord ord' Hp Hp' s ds ds' P Hd fuel l l' E E' Hf U.
  assert (Hd' : forall i o, In (i, o) ds' -> dx i <> f0 /\ i < length s).
  { intros i o I. apply (Hd i o). eapply Permutation_in; [symmetry; exact P|auto]. }
  rewrite (fdd_tensor K x dx ord Hp) in E by (auto; intros i o I; apply (Hd i o I)).
  rewrite (fdd_tensor K x dx ord' Hp') in E'.
  2:{ rewrite <- (Permutation_length P). auto. }
  2:{ intros i o I; apply (Hd' i o I). }
  inversion E; inversion E'; subst.
  rewrite !tensor_value; [|intros i o I; apply (Hd' i o I)|intros i o I; apply (Hd i o I)].
  apply partials_perm. auto.
Qed.
Print Assumptions C24_variable_order_irrelevant.

(** the loop needs exactly one round per variable: with one unit of fuel less the model
    reports non-termination *)
Example C24_example_rounds :
  (exists l, @finite_difference_derivative QcF (fun _ => f0) (fun _ => f1) (fun l => l) 3
               ([0;0]%Z, [(0,1);(1,2)]) = Ok l /\ length l = 6)
  /\ @finite_difference_derivative QcF (fun _ => f0) (fun _ => f1) (fun l => l) 2
       ([0;0]%Z, [(0,1);(1,2)]) = Err RuntimeError.
Proof.
  split.
  - exists (tensor QcF (fun _ => f1) [0;0]%Z [(0,1);(1,2)]). split; [|reflexivity].
    apply fdd_tensor; [auto|simpl; lia|intros; discriminate].
  - vm_compute. reflexivity.
Qed.

(** C25 *)
Theorem C25_simultaneous_replacement :
  forall (K : Fld) (x dx : nat -> K), (forall i, dx i <> f0) ->
  forall ord ordE, (forall l, Permutation (ord l) l) -> (forall l, Permutation (ordE l) l) ->
  forall e, has_DerOf e = false ->
  exists e', finite_difference x dx ord ordE e = Ok e'
    /\ ders e' = [] /\ has_DerOf e' = false
    /\ ((forall u s a, In (u, s, a) (ders e) -> length s = length a) ->
        forall U un dv, value x dx U un dv e'
          = value x dx U un (fun u s a => partials dx (variables 0 a) (U u) (displaced x dx s)) e).
Proof.
  intros K x dx Hd ord ordE Hp Hq e He. exists (simul (disc K dx) e).
  split; [apply finite_difference_simul; auto|].
  split; [apply ders_simul_disc|]. split; [apply noDerOf_simul_disc; auto|].
  intros Hw U un dv. rewrite <- simul_value.
  - pose proof (ders_simul_disc K dx e) as N. revert N. generalize (simul (disc K dx) e) as f. clear.
    induction f as [c|u s|u s b|g f IH|a IHa b IHb|a IHa b IHb|op f IH]; intros N; auto.
    + discriminate N.
    + cbn [ders] in N. apply app_eq_nil in N. destruct N. cbn [value]. rewrite IHa, IHb; auto.
    + cbn [ders] in N. apply app_eq_nil in N. destruct N. cbn [value]. rewrite IHa, IHb; auto.
    + cbn [value]. rewrite IH; auto.
  - intros [[u s] a] I. simpl. eauto.
Qed.
Print Assumptions C25_simultaneous_replacement.

Theorem C25_iteration_order_irrelevant :
  forall (K : Fld) (x dx : nat -> K), (forall i, dx i <> f0) ->
  forall ord ordE ord' ordE',
    (forall l, Permutation (ord l) l) -> (forall l, Permutation (ordE l) l) ->
    (forall l, Permutation (ord' l) l) -> (forall l, Permutation (ordE' l) l) ->
  forall e, has_DerOf e = false ->
    finite_difference x dx ord ordE e = finite_difference x dx ord' ordE' e.
Proof.
  intros. rewrite !finite_difference_simul; auto.
Qed.
Print Assumptions C25_iteration_order_irrelevant.

(** replacing lower orders first would not give the simultaneous substitution: on
    D_x u + D_xx u a derivative of a finite difference is left *)
Theorem C25_increasing_order_refuted :
  exists (e e' : @expr QcF), has_DerOf e = false /\
    finite_difference_with (fun _ => f0) (fun _ => f1) (fun l => l) (fun l => l) (fun l => rev (sort_desc l)) e = Ok e'
    /\ has_DerOf e' = true.
Proof.
  exists (Add (Der 0 [0%Z] [1]) (Der 0 [0%Z] [2])).
  eexists. split; [reflexivity|]. split; [vm_compute; reflexivity|reflexivity].
Qed.
Print Assumptions C25_increasing_order_refuted.

(** Burgers: kappa*u_xx - u*u_x at index 0 *)
Example C25_example_burgers :
  exists e', @finite_difference QcF (fun _ => f0) (fun _ => f1) (fun l => l) (fun l => rev l)
    (Add (Mul (Cst f1) (Der 0 [0%Z] [2])) (Mul (Cst (fopp f1)) (Mul (Fn 0 [0%Z]) (Der 0 [0%Z] [1])))) = Ok e'
    /\ ders e' = [].
Proof. eexists. split; [vm_compute; reflexivity|reflexivity]. Qed.
