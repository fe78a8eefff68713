(** A concrete solution meeting all hypotheses of the theorems on SymbolicPKF: two fields advected by
    the first one, with a source; mean 2, errors exp(z) eps(z) where z = x - 2 t and eps is the random
    wave of ReynoldsInst. *)
From Coq Require Import List Arith Ring QArith Qcanon Bool String FunctionalExtensionality.
From Verif Require Import PyBase Reynolds ReynoldsInst PKFModel PKFSpec.
Import ListNotations.
Close Scope Q_scope.
Open Scope Qc_scope.
Open Scope string_scope.

Definition lam2 (c : string) : Qc :=
  if string_dec c "x" then 1 else if string_dec c "t" then - (1 + 1) else 0.
Definition W : RAlg := wave lam2.

Definition h_exp : hs := fun _ => 1.
Fixpoint h_sign (n : nat) : Qc := match n with O => 1 | S m => - h_sign m end.
Lemma tl_exp : h_tl h_exp = h_exp.
Proof. reflexivity. Qed.
Lemma tl_sign : h_tl h_sign = h_opp h_sign.
Proof. reflexivity. Qed.
Lemma exp_sign : h_mul h_exp h_sign = h_q 1.
Proof.
  extensionality n. unfold h_mul. destruct n; [change (h_exp O * h_sign O = 1); unfold h_exp; cbn [h_sign]; ring|]. cbn [h_mul_n].
  rewrite tl_exp, tl_sign, (h_mul_comm n h_exp (h_opp _)), h_mul_opp, (h_mul_comm n h_sign). unfold h_q. ring.
Qed.

Definition sg : W := (fun _ => h_exp) : rf.
Definition isg : W := (fun _ => h_sign) : rf.
Definition ep : W := eps_wave.
Definition two : W := cq (1 + 1)%Qc.

Definition sys_env : env W := mkEnv
  (fun f => match f with
            | FField _ | FMean _ => two
            | FErr _ => (sg * ep)%ra
            | FEps _ => ep
            | FVar _ | FCov _ _ => (sg * sg)%ra
            | FStd _ => sg
            | FMet _ _ _ | FAsp _ _ _ | FInvAsp _ _ _ => 1%ra
            | FDif _ _ _ => cq (Q2Qc (1 # 2))
            | FInvDif _ _ _ => two
            | FExt k deps => if list_eq_dec string_dec deps ["t"; "x"] then (sg * sg)%ra else 0%ra
            end)
  (fun _ => sg) (fun _ => isg) (fun _ => 0%ra) 1%ra.

(** D_t u = - u D_x u + F(t,x), D_t v = - u D_x v + F(t,x) *)
Definition two_fields : list poly :=
  [ [((-1)%Q, [AJet (FField 0) []; AJet (FField 0) ["x"]]); (1%Q, [AJet (FExt 0 ["t"; "x"]) []])];
    [((-1)%Q, [AJet (FField 0) []; AJet (FField 1) ["x"]]); (1%Q, [AJet (FExt 0 ["t"; "x"]) []])] ].

Lemma two_fields_user : user_system two_fields.
Proof.
  intros p c m a Hp Hm Ha. cbn in Hp.
  repeat (destruct Hp as [<-|Hp]; [cbn in Hm; repeat (destruct Hm as [Hm|Hm]; [injection Hm as <- <-; cbn in Ha;
    repeat (destruct Ha as [<-|Ha]; [cbn; auto with arith|]); destruct Ha|]); destruct Hm|]); destruct Hp.
Qed.

Add Ring W_ring : (c_th W).
Open Scope ra_scope.

Lemma lam_x : lam2 "x" = 1%Qc. Proof. reflexivity. Qed.
Lemma lam_t : lam2 "t" = (- (1 + 1))%Qc. Proof. reflexivity. Qed.
Lemma dd_x (a : W) : dd "x" a = (fun o => h_tl ((a : rf) o)).
Proof.
  change (dd "x" a) with (r_dd lam2 "x" a). unfold r_dd. rewrite lam_x.
  extensionality o. extensionality n. ring.
Qed.
Lemma dd_t (a : W) : dd "t" a = cq (- (1 + 1))%Qc * dd "x" a.
Proof.
  change (dd "x" a) with (r_dd lam2 "x" a). change (dd "t" a) with (r_dd lam2 "t" a).
  change (cq (r := W) (- (1 + 1))%Qc * r_dd lam2 "x" a) with (r_mul (r_q (- (1 + 1))) (r_dd lam2 "x" a)).
  unfold r_dd, r_mul, r_q, h_mul. rewrite lam_x, lam_t. extensionality o. extensionality n. rewrite h_mul_q. ring.
Qed.
Lemma dd_other c (a : W) : ~ In c ["t"; "x"] -> dd c a = 0.
Proof.
  intros H. change (dd c a) with (r_dd lam2 c a). change (0 : W) with (r_q 0).
  unfold r_dd, r_q, lam2. extensionality o. extensionality n.
  destruct (string_dec c "x") as [->|]; [destruct H; right; left; reflexivity|].
  destruct (string_dec c "t") as [->|]; [destruct H; left; reflexivity|]. destruct n; cbn [h_q]; ring.
Qed.
Lemma dx_sg : dd "x" sg = sg.
Proof. rewrite dd_x. reflexivity. Qed.
Lemma det_const (h : hs) : EE (r := W) (fun _ => h) = (fun _ => h).
Proof. change (r_EE (fun _ => h) = (fun _ => h)). unfold r_EE. extensionality o. extensionality n. apply avg_const. Qed.
Lemma det_sg : det sg. Proof. exact (det_const h_exp). Qed.
Lemma det_isg : det isg. Proof. exact (det_const h_sign). Qed.
Lemma sg_isg : sg * isg = 1.
Proof. change (r_mul sg isg = r_q 1). unfold r_mul, sg, isg, r_q. extensionality o. apply exp_sign. Qed.
Lemma det_mul (a b : W) : det a -> det b -> det (a * b).
Proof. intros Ha Hb. unfold det. rewrite EE_det_l, Hb by exact Ha. reflexivity. Qed.
Lemma ep_centred : EE ep = 0.
Proof. exact eps_centred. Qed.
Lemma ep_normalised : EE (ep * ep) = 1.
Proof. exact eps_normalised. Qed.
Lemma ep_metric : EE (dd "x" ep * dd "x" ep) = 1.
Proof.
  rewrite dd_x. change (r_EE (r_mul (fun o => h_tl (eps_wave o)) (fun o => h_tl (eps_wave o))) = r_q 1).
  extensionality o. extensionality n. unfold r_EE, r_mul, h_mul. change (r_q 1 o n) with (h_q 1 n).
  rewrite <- cos2_sin2. refine (eq_trans (avg_quad (h_tl h_sin) (h_tl h_cos) n) _).
  rewrite tl_sin, tl_cos, h_mul_opp, (h_mul_comm n h_sin (h_opp _)), h_mul_opp. unfold h_add, h_mul. ring.
Qed.
Lemma two_const c : dd c two = 0.
Proof. apply dd_cq. Qed.
Lemma two_det : det two.
Proof. apply EE_cq. Qed.
Lemma err_sq : EE (sg * ep * (sg * ep)) = sg * sg.
Proof.
  replace (sg * ep * (sg * ep)) with (sg * sg * (ep * ep)) by ring.
  rewrite EE_det_l, ep_normalised by (apply det_mul; apply det_sg). ring.
Qed.

Lemma det_one : det (1 : W).
Proof. unfold det. rewrite <- (cq_1 W). apply EE_cq. Qed.
Lemma det_zero : det (0 : W).
Proof. exact (EE_0 (A := W)). Qed.
Lemma det_var : det (sg * sg).
Proof. apply det_mul; exact det_sg. Qed.

Lemma sys_statistics : statistics ["x"] 2 sys_env.
Proof.
  constructor; intros; cbn [sys_env e_fn e_sig e_isig e_cst e_small].
  - destruct f; cbn [is_random] in *; try discriminate.
    + exact two_det. + exact two_det. + exact det_var. + exact det_sg. + exact det_one. + exact det_var. + apply EE_cq.
    + exact det_one. + exact two_det. + exact det_one.
    + destruct (list_eq_dec string_dec deps ["t"; "x"]); [exact det_var|exact det_zero].
  - exact det_zero.
  - apply (dd_0 (A := W)).
  - destruct (list_eq_dec string_dec deps ["t"; "x"]) as [->|]; [apply dd_other; assumption|apply (dd_0 (A := W))].
  - rewrite EE_det_l, ep_centred by apply det_sg. ring.
  - symmetry. apply err_sq.
  - reflexivity.
  - apply det_sg.
  - apply sg_isg.
  - transitivity (sg * isg * ep); [rewrite sg_isg; ring|ring].
  - cbn [List.length] in *. replace b with 0%nat by Lia.lia. replace a with 0%nat by Lia.lia. symmetry. apply ep_metric.
  - symmetry. apply err_sq.
  - reflexivity.
  - reflexivity.
Qed.

Lemma sys_errors : error_dynamics two_fields sys_env.
Proof.
  assert (H : dd "t" (sg * ep) = (- two) * dd "x" (sg * ep)).
  { rewrite dd_t. f_equal. unfold two. rewrite <- cq_opp. reflexivity. }
  assert (M : cq (r := W) (Q2Qc (-1)) = (- (1))).
  { rewrite <- (cq_1 W), <- cq_opp. apply (f_equal (cq (r := W))), Qc_is_canon; reflexivity. }
  intros [|[|[|i]]] p Hp; cbn [two_fields nth_error] in Hp; try discriminate; injection Hp as <-;
    unfold taylor1, expansion, t_poly, t_mono, t_const; cbn [fold_right fst snd t_atom t_mul t_add dds];
    unfold t_const; cbn [t_mul t_add fst snd]; cbn [sys_env e_fn]; rewrite M, H, two_const; unfold two; ring.
Qed.
Lemma dx_sq : EE (sg * ep * dd "x" (sg * ep)) = sg * sg.
Proof.
  assert (H : dd "x" (EE (sg * ep * (sg * ep))) = (1 + 1) * (sg * sg)).
  { rewrite err_sq, dd_mul, dx_sg. ring. }
  rewrite <- EE_dd, dd_mul in H.
  replace (dd "x" (sg * ep) * (sg * ep) + sg * ep * dd "x" (sg * ep)) with ((1 + 1) * (sg * ep * dd "x" (sg * ep))) in H by ring.
  assert (T : cq (r := W) (1 + 1)%Qc = 1 + 1) by (rewrite cq_add, cq_1; reflexivity).
  rewrite EE_det_l in H by (rewrite <- T; apply EE_cq).
  assert (Q : cq (r := W) (Q2Qc (1 # 2)) * (1 + 1) = 1).
  { rewrite <- T, <- cq_mul, <- (cq_1 W). apply (f_equal (cq (r := W))), Qc_is_canon; reflexivity. }
  set (z := EE (sg * ep * dd "x" (sg * ep))) in *.
  transitivity (cq (r := W) (Q2Qc (1 # 2)) * (1 + 1) * z); [rewrite Q; ring|].
  transitivity (cq (r := W) (Q2Qc (1 # 2)) * ((1 + 1) * z)); [ring|]. rewrite H.
  transitivity (cq (r := W) (Q2Qc (1 # 2)) * (1 + 1) * (sg * sg)); [ring|]. rewrite Q. ring.
Qed.
Lemma sys_mean : mean_dynamics two_fields sys_env.
Proof.
  assert (M : cq (r := W) (Q2Qc (-1)) = (- (1))).
  { rewrite <- (cq_1 W), <- cq_opp. apply (f_equal (cq (r := W))), Qc_is_canon; reflexivity. }
  assert (M1 : cq (r := W) (Q2Qc 1) = 1).
  { rewrite <- (cq_1 W). apply (f_equal (cq (r := W))), Qc_is_canon; reflexivity. }
  assert (Z : EE (sg * sg - two * dd "x" (sg * ep) - sg * ep * dd "x" (sg * ep)) = 0).
  { rewrite !EE_sub, dx_sq, (det_mul sg sg det_sg det_sg), (EE_det_l two), EE_dd, EE_det_l, ep_centred by (apply two_det || apply det_sg).
    replace (sg * 0) with (0 : W) by ring. rewrite (dd_0 (A := W)). ring. }
  intros [|[|[|i]]] p Hp; cbn [two_fields nth_error] in Hp; try discriminate; injection Hp as <-;
    (transitivity (0 : W); [apply two_const|]); rewrite <- Z; f_equal;
    unfold taylor0, taylor1, taylor2_coef, expansion, t_poly, t_mono, t_const; cbn [fold_right fst snd t_atom t_mul t_add dds];
    unfold t_const; cbn [t_mul t_add fst snd]; cbn [sys_env e_fn];
    change (if list_eq_dec string_dec ["t"; "x"] ["t"; "x"] then ?a else ?b) with a;
    rewrite M, M1, two_const; ring.
Qed.
Lemma sys_diffusion : tensor_is ["x"] 2 sys_env FDif FInvDif (1 # 2).
Proof.
  assert (Q : cq (r := W) (Q2Qc (1 # 2)) * two = 1).
  { unfold two. rewrite <- cq_mul, <- (cq_1 W). apply (f_equal (cq (r := W))), Qc_is_canon; reflexivity. }
  intros i Hi. split; intros a b Ha Hb; cbn [List.length] in *; replace a with 0%nat by Lia.lia; replace b with 0%nat by Lia.lia;
    cbv [mat_mul seq map asum fold_right tensor_matrix Nat.ltb Nat.leb scalar_matrix Nat.eqb sys_env e_fn].
  - ring.
  - rewrite Q. transitivity (1 : W); [ring|]. rewrite <- (cq_1 W). apply (f_equal (cq (r := W))), Qc_is_canon; reflexivity.
Qed.
Lemma sys_aspect : tensor_is ["x"] 2 sys_env FAsp FInvAsp 1.
Proof.
  intros i Hi. split; intros a b Ha Hb; cbn [List.length] in *; replace a with 0%nat by Lia.lia; replace b with 0%nat by Lia.lia;
    cbv [mat_mul seq map asum fold_right tensor_matrix Nat.ltb Nat.leb scalar_matrix Nat.eqb sys_env e_fn];
    (transitivity (1 : W); [ring|]); rewrite <- (cq_1 W); apply (f_equal (cq (r := W))), Qc_is_canon; reflexivity.
Qed.
