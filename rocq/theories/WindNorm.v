(** Linear dynamics that conserve an energy up to a bounded term: growth of the energy under rk4, and
    errors of a step from approximate derivatives. *)
From Coq Require Import List Arith ZArith Bool Reals String Lia Lra Psatz FunctionalExtensionality.
From Verif Require Import PyBase PyBaseFacts Scalars FieldFacts FDReal ConsistMain SchemesModel SchemesSpec SchemesProofs EnergySpec EnergyProofs LineConv AdvectConv.
Import ListNotations.
Open Scope R_scope.

Lemma exp_partial z p : 0 <= z -> sum_f_R0 (fun i => / INR (fact i) * z ^ i) p <= exp z.
Proof.
  intros Hz. unfold exp. destruct (exist_exp z) as [l Hl]. cbn [proj1_sig].
  apply sum_incr; [exact Hl|]. intros i. apply Rmult_le_pos; [apply Rlt_le, Rinv_0_lt_compat, INR_fact_lt_0|apply pow_le; auto].
Qed.
Lemma exp_square z : 0 <= z -> (1 + z) * (1 + z) <= exp (2 * z).
Proof.
  intros Hz. replace (2 * z) with (z + z) by ring. rewrite exp_plus. pose proof (exp_ineq1_le z). apply Rmult_le_compat; lra.
Qed.
Lemma fpow_R (dt : R) q : @fpow RF dt q = dt ^ q.
Proof. induction q as [|q IH]; [reflexivity|]. cbn in *. rewrite IH. reflexivity. Qed.
Lemma coefficient (dt : R) p : @fdiv RF (@fpow RF dt p) (@ffact RF p) = dt ^ p / INR (fact p).
Proof. unfold ffact. rewrite fnat_INR, fpow_R. reflexivity. Qed.

Section Norms.
  Context {I : Type}.
  Notation A := (arr RF I).
  Variable ip : A -> A -> R.
  Hypothesis IP : inner_product ip.
  Notation nrm := (norm ip).
  Definition vsub (a b : A) : A := @vadd RF I a (@vscale RF I (-1) b).
  Lemma norm_scale k a : nrm (@vscale RF I k a) = Rabs k * nrm a.
  Proof.
    unfold norm. rewrite (ip_scale ip IP), (ipr_scale ip IP). rewrite <- Rmult_assoc, sqrt_mult; [|nra|apply (ip_pos ip IP)].
    change (k * k) with (Rsqr k). rewrite sqrt_Rsqr_abs. reflexivity.
  Qed.
  Lemma norm_sub_triangle a b c : nrm (vsub a c) <= nrm (vsub a b) + nrm (vsub b c).
  Proof.
    replace (vsub a c) with (@vadd RF I (vsub a b) (vsub b c)); [apply (norm_add ip IP)|].
    apply functional_extensionality. intros i. unfold vsub, vadd, vscale. cbn. ring.
  Qed.
  Lemma norm_from_sub a b : nrm a <= nrm b + nrm (vsub a b).
  Proof.
    replace a with (@vadd RF I b (vsub a b)) at 1; [apply (norm_add ip IP)|].
    apply functional_extensionality. intros i. unfold vsub, vadd, vscale. cbn. ring.
  Qed.
  Lemma norm_zero a : (forall i, a i = 0) -> nrm a = 0.
  Proof.
    intros H. replace a with (@vscale RF I 0 a); [transitivity (Rabs 0 * nrm a); [apply norm_scale|rewrite Rabs_R0; ring]|].
    apply functional_extensionality. intros i. unfold vscale. rewrite H. cbn. ring.
  Qed.
  Lemma at_most_norm (f : A -> A) m x : 0 <= m -> at_most ip f m -> nrm (f x) <= m * nrm x.
  Proof.
    intros Hm H. apply Rsqr_incr_0; [|apply norm_pos|apply Rmult_le_pos; auto; apply norm_pos].
    unfold Rsqr. rewrite (norm_sq ip IP). specialize (H x). rewrite <- (norm_sq ip IP x) in H.
    replace (m * nrm x * (m * nrm x)) with (m ^ 2 * (nrm x * nrm x)) by ring. exact H.
  Qed.
  Lemma norm_at_most (f : A -> A) m : 0 <= m -> (forall x, nrm (f x) <= m * nrm x) -> at_most ip f m.
  Proof.
    intros Hm H x. rewrite <- (norm_sq ip IP (f x)), <- (norm_sq ip IP x). replace (m ^ 2 * (nrm x * nrm x)) with (m * nrm x * (m * nrm x)) by ring.
    apply Rmult_le_compat; auto; apply norm_pos.
  Qed.
  Lemma linear_sub (f : A -> A) a b : @linear RF I I f -> f (vsub a b) = vsub (f a) (f b).
  Proof. intros [L1 L2]. unfold vsub. rewrite L1, L2. reflexivity. Qed.

  (** ** a conservative part and a bounded part *)
  Section Split.
    Variables (f S : A -> A) (M b : R).
    Hypothesis (LF : @linear RF I I f) (LS : @linear RF I I S) (CS : conservative ip S).
    Hypothesis (MS : at_most ip S M) (HM : 0 <= M) (Hb : 0 <= b) (HB : forall x, nrm (vsub (f x) (S x)) <= b * nrm x).
    Variable dt : R.
    Hypothesis Hdt : 0 <= dt.
    Notation z := (dt * (M + b)).
    Lemma split_norm x : nrm (f x) <= (M + b) * nrm x.
    Proof. pose proof (norm_from_sub (f x) (S x)) as T. pose proof (HB x). pose proof (at_most_norm S M x HM MS). lra. Qed.
    Lemma iter_skew_norm j x : dt ^ j * nrm (Nat.iter j S x) <= z ^ j * nrm x.
    Proof.
      induction j as [|j IH]; [cbn; lra|]. change (Nat.iter (Datatypes.S j) S x) with (S (Nat.iter j S x)). cbn [pow].
      assert (0 <= z) by (apply Rmult_le_pos; lra).
      apply Rle_trans with (dt * dt ^ j * (M * nrm (Nat.iter j S x))).
      { apply Rmult_le_compat_l; [apply Rmult_le_pos; auto; apply pow_le; auto|]. apply at_most_norm; auto. }
      replace (dt * dt ^ j * (M * nrm (Nat.iter j S x))) with (dt * M * (dt ^ j * nrm (Nat.iter j S x))) by ring. rewrite (Rmult_assoc z).
      apply Rmult_le_compat; auto.
      - apply Rmult_le_pos; auto.
      - apply Rmult_le_pos; [apply pow_le; auto|apply norm_pos].
      - apply Rmult_le_compat_l; lra.
    Qed.
    Lemma iter_split j x : dt ^ Datatypes.S j * nrm (vsub (Nat.iter (Datatypes.S j) f x) (Nat.iter (Datatypes.S j) S x)) <= INR (Datatypes.S j) * z ^ j * (dt * b) * nrm x.
    Proof.
      assert (Pz : 0 <= z) by (apply Rmult_le_pos; lra). assert (Pb : 0 <= dt * b) by (apply Rmult_le_pos; auto).
      induction j as [|j IH].
      - cbn -[vsub]. pose proof (HB x) as H. rewrite !Rmult_1_r, Rmult_1_l, Rmult_assoc. apply Rmult_le_compat_l; auto.
      - set (j1 := Datatypes.S j) in *.
        change (Nat.iter (Datatypes.S j1) f x) with (f (Nat.iter j1 f x)). change (Nat.iter (Datatypes.S j1) S x) with (S (Nat.iter j1 S x)).
        pose proof (norm_sub_triangle (f (Nat.iter j1 f x)) (f (Nat.iter j1 S x)) (S (Nat.iter j1 S x))) as T.
        rewrite <- (linear_sub f) in T by auto.
        pose proof (split_norm (vsub (Nat.iter j1 f x) (Nat.iter j1 S x))) as T1. pose proof (HB (Nat.iter j1 S x)) as T2.
        set (D := nrm (vsub (Nat.iter j1 f x) (Nat.iter j1 S x))) in *. set (X := nrm (Nat.iter j1 S x)) in *.
        pose proof (iter_skew_norm j1 x) as K. fold X in K.
        assert (P1 : 0 <= dt ^ Datatypes.S j1) by (apply pow_le; auto).
        apply Rle_trans with (dt ^ Datatypes.S j1 * ((M + b) * D + b * X)); [apply Rmult_le_compat_l; auto; lra|].
        replace (dt ^ Datatypes.S j1 * ((M + b) * D + b * X)) with (z * (dt ^ j1 * D) + dt * b * (dt ^ j1 * X)) by (cbn [pow]; ring).
        apply (Rmult_le_compat_l z) in IH; auto. apply (Rmult_le_compat_l (dt * b)) in K; auto.
        eapply Rle_trans; [apply Rplus_le_compat; [exact IH|exact K]|]. rewrite (S_INR j1). apply Req_le. unfold j1. cbn [pow]. ring.
    Qed.
    Lemma taylor_split p x : nrm (vsub (@exp_taylor RF I f dt (Datatypes.S p) x) (@exp_taylor RF I S dt (Datatypes.S p) x))
      <= sum_f_R0 (fun i => / INR (fact i) * z ^ i) p * (dt * b) * nrm x.
    Proof.
      assert (G : forall q, vsub (@exp_taylor RF I f dt (Datatypes.S q) x) (@exp_taylor RF I S dt (Datatypes.S q) x) =
        @vadd RF I (vsub (@exp_taylor RF I f dt q x) (@exp_taylor RF I S dt q x))
          (@vscale RF I (dt ^ Datatypes.S q / INR (fact (Datatypes.S q)))%R (vsub (Nat.iter (Datatypes.S q) f x) (Nat.iter (Datatypes.S q) S x)))).
      { intros q. cbn [exp_taylor]. rewrite !coefficient. apply functional_extensionality. intros i. unfold vsub, vadd, vscale.
        set (u := Nat.iter _ f x i). set (v := Nat.iter _ S x i). cbn. ring. }
      assert (T : forall q, nrm (@vscale RF I (dt ^ Datatypes.S q / INR (fact (Datatypes.S q)))%R (vsub (Nat.iter (Datatypes.S q) f x) (Nat.iter (Datatypes.S q) S x)))
        <= / INR (fact q) * z ^ q * (dt * b) * nrm x).
      { intros q. rewrite norm_scale. pose proof (iter_split q x) as K. pose proof (INR_fact_lt_0 q). pose proof (INR_fact_lt_0 (Datatypes.S q)) as Pf.
        assert (Pi : 0 < INR (Datatypes.S q)) by (apply lt_0_INR; lia).
        assert (P1 : 0 <= dt ^ Datatypes.S q) by (apply pow_le; auto).
        rewrite Rabs_pos_eq by (apply Rmult_le_pos; auto; apply Rlt_le, Rinv_0_lt_compat; auto).
        apply (Rmult_le_compat_l (/ INR (fact (Datatypes.S q)))) in K; [|apply Rlt_le, Rinv_0_lt_compat; auto].
        eapply Rle_trans; [|eapply Rle_trans; [exact K|]].
        - apply Req_le. unfold Rdiv. ring.
        - apply Req_le. rewrite fact_simpl, mult_INR. field. split; lra. }
      induction p as [|p IH].
      - rewrite G. eapply Rle_trans; [apply (norm_add ip IP)|]. specialize (T O). cbn [sum_f_R0].
        rewrite (norm_zero (vsub _ _)); [lra|]. intros i. unfold vsub, vadd, vscale. cbn. ring.
      - rewrite G. eapply Rle_trans; [apply (norm_add ip IP)|]. specialize (T (Datatypes.S p)). cbn [sum_f_R0]. lra.
    Qed.
    Theorem rk4_grows x : dt * M <= 2 * sqrt 2 -> nrm (@exp_taylor RF I f dt 4 x) <= (1 + dt * b * exp (dt * (M + b))) * nrm x.
    Proof.
      intros C. pose proof (norm_from_sub (@exp_taylor RF I f dt 4 x) (@exp_taylor RF I S dt 4 x)) as T.
      assert (K : nrm (@exp_taylor RF I S dt 4 x) <= nrm x).
      { unfold norm. apply sqrt_le_1_alt. pose proof (exp_gain ip S IP LS CS SRk4 dt x) as G. cbv zeta in G. cbn [onestep_order] in G. rewrite G.
        enough (gain ip S SRk4 dt x <= 0) by lra. apply (gain_rk4 ip S IP M); auto.
        replace (dt ^ 2 * M ^ 2) with ((dt * M) ^ 2) by ring. replace 8 with ((2 * sqrt 2) ^ 2).
        - apply pow_incr. split; auto. apply Rmult_le_pos; auto.
        - pose proof (sqrt_sqrt 2 ltac:(lra)). cbn. lra. }
      pose proof (taylor_split 3 x) as D.
      assert (Pz : 0 <= z) by (apply Rmult_le_pos; lra). pose proof (exp_partial z 3 Pz) as E.
      assert (Pb : 0 <= dt * b) by (apply Rmult_le_pos; auto). pose proof (norm_pos ip x) as Px.
      apply (Rmult_le_compat_r (dt * b)) in E; auto. apply (Rmult_le_compat_r (nrm x)) in E; auto.
      eapply Rle_trans; [exact T|]. rewrite Rmult_plus_distr_r. lra.
    Qed.
  End Split.

  (** ** the step from approximate derivatives in time *)
  Fixpoint cumulated (kappa T : R) (j : nat) : R := match j with O => 0 | S i => kappa * cumulated kappa T i + T ^ i end.
  Fixpoint total (kappa T : R) (p : nat) : R := match p with O => 0 | S q => total kappa T q + cumulated kappa T (S q) / INR (fact (S q)) end.
  Fixpoint expansion (U : nat -> A) (dt : R) (p : nat) : A :=
    match p with O => U O | S q => @vadd RF I (expansion U dt q) (@vscale RF I (dt ^ S q / INR (fact (S q)))%R (U (S q))) end.
  Section Approx.
    Variables (f : A -> A) (m dt eps kappa T : R) (U : nat -> A).
    Hypothesis (LF : @linear RF I I f) (Hm : forall x, nrm (f x) <= m * nrm x) (Hdt : 0 <= dt) (Hk : dt * m <= kappa) (Hk0 : 0 <= kappa) (HT : dt <= T) (He : 0 <= eps).
    Lemma iter_approx p j : (j <= p)%nat -> (forall i, (i < p)%nat -> nrm (vsub (f (U i)) (U (S i))) <= eps) ->
      dt ^ j * nrm (vsub (Nat.iter j f (U O)) (U j)) <= dt * eps * cumulated kappa T j.
    Proof.
      intros Hj HU. induction j as [|j IH].
      - cbn [Nat.iter cumulated]. rewrite (norm_zero (vsub _ _)); [|intros i; unfold vsub, vadd, vscale; cbn; ring]. lra.
      - specialize (IH ltac:(lia)). specialize (HU j ltac:(lia)). change (Nat.iter (S j) f (U O)) with (f (Nat.iter j f (U O))).
        set (X := Nat.iter j f (U O)) in *.
        pose proof (norm_sub_triangle (f X) (f (U j)) (U (S j))) as Tr. rewrite <- (linear_sub f) in Tr by auto.
        pose proof (Hm (vsub X (U j))) as Q. pose proof (norm_pos ip (vsub X (U j))) as P. set (D := nrm (vsub X (U j))) in *.
        assert (P1 : 0 <= dt ^ S j) by (apply pow_le; auto). assert (P2 : 0 <= dt ^ j) by (apply pow_le; auto).
        apply Rle_trans with (dt ^ S j * (m * D + eps)); [apply Rmult_le_compat_l; auto; lra|]. cbn [cumulated].
        replace (dt ^ S j * (m * D + eps)) with (dt * m * (dt ^ j * D) + dt * eps * dt ^ j) by (cbn [pow]; ring).
        rewrite Rmult_plus_distr_l. apply Rplus_le_compat.
        + apply Rle_trans with (kappa * (dt ^ j * D)); [apply Rmult_le_compat_r; auto; apply Rmult_le_pos; auto|].
          replace (dt * eps * (kappa * cumulated kappa T j)) with (kappa * (dt * eps * cumulated kappa T j)) by ring. apply Rmult_le_compat_l; auto.
        + apply Rmult_le_compat_l; [apply Rmult_le_pos; auto|]. apply pow_incr. lra.
    Qed.
    Theorem step_approx p : (forall i, (i < p)%nat -> nrm (vsub (f (U i)) (U (S i))) <= eps) ->
      nrm (vsub (@exp_taylor RF I f dt p (U O)) (expansion U dt p)) <= dt * eps * total kappa T p.
    Proof.
      assert (G : forall q, (q <= p)%nat -> (forall i, (i < p)%nat -> nrm (vsub (f (U i)) (U (S i))) <= eps) ->
        nrm (vsub (@exp_taylor RF I f dt q (U O)) (expansion U dt q)) <= dt * eps * total kappa T q).
      { induction q as [|q IH]; intros Hq HU.
        - cbn [exp_taylor expansion total]. rewrite (norm_zero (vsub _ _)); [|intros i; unfold vsub, vadd, vscale; cbn; ring]. lra.
        - specialize (IH ltac:(lia) HU). cbn [total].
          assert (E : vsub (@exp_taylor RF I f dt (S q) (U O)) (expansion U dt (S q)) =
            @vadd RF I (vsub (@exp_taylor RF I f dt q (U O)) (expansion U dt q))
              (@vscale RF I (dt ^ S q / INR (fact (S q)))%R (vsub (Nat.iter (S q) f (U O)) (U (S q))))).
          { cbn [exp_taylor expansion]. rewrite coefficient. apply functional_extensionality. intros i. unfold vsub, vadd, vscale.
            set (u := Nat.iter _ f _ i). cbn. ring. }
          rewrite E. eapply Rle_trans; [apply (norm_add ip IP)|]. rewrite Rmult_plus_distr_l. apply Rplus_le_compat; auto.
          pose proof (INR_fact_lt_0 (S q)) as Pf. assert (P1 : 0 <= dt ^ S q) by (apply pow_le; auto).
          rewrite norm_scale, Rabs_pos_eq by (apply Rmult_le_pos; auto; apply Rlt_le, Rinv_0_lt_compat; auto).
          pose proof (iter_approx p (S q) Hq HU) as K.
          apply (Rmult_le_compat_l (/ INR (fact (S q)))) in K; [|apply Rlt_le, Rinv_0_lt_compat; auto]. unfold Rdiv in *. lra. }
      intros HU. apply G; auto.
    Qed.
  End Approx.
End Norms.
