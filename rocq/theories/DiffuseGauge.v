(** Schemes whose explicit step does not increase a measure of the states: stability of rk2 and rk4, and the
    errors of forecasts. *)
From Coq Require Import List Arith Bool Reals String Lia Lra Psatz FunctionalExtensionality.
From Verif Require Import PyBase Scalars FieldFacts FDReal ConsistMain SchemesModel SchemesSpec SchemesProofs LineConv AdvectConv WindNorm.
Import ListNotations.
Open Scope R_scope.

(** [G a x]: the array [a] is at most [x] *)
Record gauge {I} (G : arr RF I -> R -> Prop) : Prop := {
  g_zero : G (fun _ => 0) 0;
  g_add : forall a b x y, G a x -> G b y -> G (@vadd RF I a b) (x + y);
  g_scale : forall k a x, G a x -> G (@vscale RF I k a) (Rabs k * x);
  g_le : forall a x y, G a x -> x <= y -> G a y }.

Section Steps.
  Context {I : Type}.
  Notation A := (arr RF I).
  Variables (f : A -> A) (dt : R).
  Hypothesis (LF : @linear RF I I f).
  Definition explicit (a : A) : A := @vadd RF I a (@vscale RF I dt (f a)).
  Lemma iter1 (a : A) : Nat.iter 1 f a = f a. Proof. reflexivity. Qed.
  Lemma iter2 (a : A) : Nat.iter 2 f a = f (f a). Proof. reflexivity. Qed.
  Lemma iter3 (a : A) : Nat.iter 3 f a = f (f (f a)). Proof. reflexivity. Qed.
  Lemma iter4 (a : A) : Nat.iter 4 f a = f (f (f (f a))). Proof. reflexivity. Qed.
  Lemma explicit_f a : f (explicit a) = explicit (f a).
  Proof. destruct LF as [L1 L2]. unfold explicit. rewrite L1, L2. reflexivity. Qed.
  Lemma taylor_1 a : @exp_taylor RF I f dt 1 a = explicit a.
  Proof.
    cbn [exp_taylor]. rewrite coefficient, iter1. apply functional_extensionality. intros i. unfold explicit, vadd, vscale. cbn [fadd fmul RF F].
    replace (dt ^ 1 / INR (fact 1)) with dt by (cbn; field). reflexivity.
  Qed.
  Lemma taylor_2 a : @exp_taylor RF I f dt 2 a = @vadd RF I (@vscale RF I (/ 2)%R a) (@vscale RF I (/ 2)%R (explicit (explicit a))).
  Proof.
    cbn [exp_taylor]. rewrite !coefficient, iter1, iter2. unfold explicit at 1. rewrite explicit_f.
    apply functional_extensionality. intros i. unfold explicit, vadd, vscale. cbn [fadd fmul RF F].
    replace (dt ^ 1 / INR (fact 1)) with dt by (cbn; field). replace (dt ^ 2 / INR (fact 2)) with (dt ^ 2 / 2) by (cbn; field).
    match goal with |- @eq _ ?a ?b => change (@eq R a b) end. field.
  Qed.
  Lemma taylor_4 a : @exp_taylor RF I f dt 4 a =
    @vadd RF I (@vadd RF I (@vscale RF I (3 / 8)%R a) (@vscale RF I (/ 3)%R (explicit a)))
      (@vadd RF I (@vscale RF I (/ 4)%R (explicit (explicit a))) (@vscale RF I (/ 24)%R (explicit (explicit (explicit (explicit a)))))).
  Proof.
    cbn [exp_taylor]. rewrite !coefficient, iter1, iter2, iter3, iter4.
    assert (E2 : explicit (explicit a) = @vadd RF I (explicit a) (@vscale RF I dt (explicit (f a)))) by (unfold explicit at 1; rewrite explicit_f; reflexivity).
    assert (E4 : forall b, explicit (explicit b) = @vadd RF I (explicit b) (@vscale RF I dt (explicit (f b)))) by (intros b; unfold explicit at 1; rewrite explicit_f; reflexivity).
    assert (X : explicit (explicit (explicit (explicit a))) = @vadd RF I (explicit (explicit (explicit a))) (@vscale RF I dt (explicit (explicit (explicit (f a)))))).
    { rewrite (E4 (explicit (explicit a))). rewrite !explicit_f. reflexivity. }
    assert (Y : forall b, explicit (explicit (explicit b)) = @vadd RF I (explicit (explicit b)) (@vscale RF I dt (explicit (explicit (f b))))).
    { intros b. rewrite (E4 (explicit b)), !explicit_f. reflexivity. }
    rewrite X, !Y, !E4. apply functional_extensionality. intros i. unfold explicit, vadd, vscale. cbn [fadd fmul RF F].
    replace (dt ^ 1 / INR (fact 1)) with dt by (cbn; field). replace (dt ^ 2 / INR (fact 2)) with (dt ^ 2 / 2) by (cbn; field).
    replace (dt ^ 3 / INR (fact 3)) with (dt ^ 3 / 6) by (cbn; field). replace (dt ^ 4 / INR (fact 4)) with (dt ^ 4 / 24) by (cbn; field).
    match goal with |- @eq _ ?a ?b => change (@eq R a b) end. field.
  Qed.
  Variable G : A -> R -> Prop.
  Hypothesis GG : gauge G.
  Section Explicit.
  Hypothesis HE : forall a x, G a x -> G (explicit a) x.
  Lemma gauge_step s a x : G a x -> G (@exp_taylor RF I f dt (onestep_order s) a) x.
  Proof.
    intros H. destruct s; cbn [onestep_order].
    - rewrite taylor_1. auto.
    - rewrite taylor_2. apply (g_le _ GG _ (Rabs (/ 2) * x + Rabs (/ 2) * x)); [apply (g_add _ GG); apply (g_scale _ GG); auto|]. rewrite Rabs_pos_eq by lra. lra.
    - rewrite taylor_4. apply (g_le _ GG _ ((Rabs (3 / 8) * x + Rabs (/ 3) * x) + (Rabs (/ 4) * x + Rabs (/ 24) * x))); [apply (g_add _ GG); apply (g_add _ GG); apply (g_scale _ GG); auto|]. rewrite !Rabs_pos_eq by lra. lra.
  Qed.
  Lemma gauge_trend a x : G a x -> G (@vscale RF I dt (f a)) (2 * x).
  Proof.
    intros H. replace (@vscale RF I dt (f a)) with (@vadd RF I (explicit a) (@vscale RF I (-1) a)).
    - eapply (g_le _ GG); [apply (g_add _ GG); [apply HE; exact H|apply (g_scale _ GG); exact H]|]. rewrite Rabs_left by lra. lra.
    - apply functional_extensionality. intros i. unfold explicit, vadd, vscale. cbn [fadd fmul RF F]. match goal with |- @eq _ ?a ?b => change (@eq R a b) end. ring.
  Qed.
  End Explicit.

  (** the step from approximate derivatives in time *)
  Variable kap : R.
  Hypothesis HK : forall a x, G a x -> G (@vscale RF I dt (f a)) (kap * x).
  Variables (eps T : R) (U : nat -> A).
  Hypothesis (Hdt : 0 <= dt) (HT : dt <= T) (He : 0 <= eps).
  Lemma gauge_iter p j : (j <= p)%nat -> (forall i, (i < p)%nat -> G (vsub (f (U i)) (U (S i))) eps) ->
    G (@vscale RF I (dt ^ j)%R (vsub (Nat.iter j f (U O)) (U j))) (dt * eps * cumulated kap T j).
  Proof.
    intros Hj HU. induction j as [|j IH].
    - cbn [Nat.iter nat_rect cumulated]. replace (@vscale RF I (dt ^ 0)%R (vsub (U O) (U O))) with (fun _ : I => 0).
      + eapply (g_le _ GG); [apply (g_zero _ GG)|lra].
      + apply functional_extensionality. intros i. unfold vsub, vadd, vscale. cbn. ring.
    - specialize (IH ltac:(lia)). specialize (HU j ltac:(lia)). change (Nat.iter (S j) f (U O)) with (f (Nat.iter j f (U O))).
      set (X := Nat.iter j f (U O)) in *.
      replace (@vscale RF I (dt ^ S j)%R (vsub (f X) (U (S j)))) with
        (@vadd RF I (@vscale RF I dt (f (@vscale RF I (dt ^ j)%R (vsub X (U j))))) (@vscale RF I (dt ^ S j)%R (vsub (f (U j)) (U (S j))))).
      + apply HK in IH. eapply (g_le _ GG); [apply (g_add _ GG); [exact IH|apply (g_scale _ GG); exact HU]|].
        assert (P : 0 <= dt ^ j) by (apply pow_le; auto). cbn [cumulated pow]. rewrite Rabs_pos_eq by (apply Rmult_le_pos; auto).
        assert (dt ^ j <= T ^ j) by (apply pow_incr; lra). assert (0 <= dt * eps) by (apply Rmult_le_pos; auto).
        replace (dt * eps * (kap * cumulated kap T j + T ^ j)) with (kap * (dt * eps * cumulated kap T j) + dt * eps * T ^ j) by ring.
        replace (dt * dt ^ j * eps) with (dt * eps * dt ^ j) by ring. apply Rplus_le_compat_l. apply Rmult_le_compat_l; auto.
      + destruct LF as [_ L2]. rewrite L2, (linear_sub f) by auto. apply functional_extensionality. intros i. unfold vsub, vadd, vscale. cbn [fadd fmul RF F pow].
        match goal with |- @eq _ ?a ?b => change (@eq R a b) end. ring.
  Qed.
  Lemma gauge_approx p : (forall i, (i < p)%nat -> G (vsub (f (U i)) (U (S i))) eps) ->
    G (vsub (@exp_taylor RF I f dt p (U O)) (expansion U dt p)) (dt * eps * total kap T p).
  Proof.
    intros HU. assert (X : forall q, (q <= p)%nat -> G (vsub (@exp_taylor RF I f dt q (U O)) (expansion U dt q)) (dt * eps * total kap T q)); [|apply X; auto].
    induction q as [|q IH]; intros Hq.
    - cbn [exp_taylor expansion total]. replace (vsub (U O) (U O)) with (fun _ : I => 0).
      + eapply (g_le _ GG); [apply (g_zero _ GG)|lra].
      + apply functional_extensionality. intros i. unfold vsub, vadd, vscale. cbn. ring.
    - specialize (IH ltac:(lia)). cbn [total].
      assert (E : vsub (@exp_taylor RF I f dt (S q) (U O)) (expansion U dt (S q)) =
        @vadd RF I (vsub (@exp_taylor RF I f dt q (U O)) (expansion U dt q))
          (@vscale RF I (/ INR (fact (S q)))%R (@vscale RF I (dt ^ S q)%R (vsub (Nat.iter (S q) f (U O)) (U (S q)))))).
      { cbn [exp_taylor expansion]. rewrite coefficient. apply functional_extensionality. intros i. unfold vsub, vadd, vscale.
        set (u := Nat.iter _ f _ i). cbn. unfold Rdiv. ring. }
      rewrite E. pose proof (INR_fact_lt_0 (S q)) as Pf. assert (Pi : 0 < / INR (fact (S q))) by (apply Rinv_0_lt_compat; auto).
      eapply (g_le _ GG); [apply (g_add _ GG); [exact IH|apply (g_scale _ GG); apply (gauge_iter p (S q) Hq HU)]|].
      rewrite Rabs_pos_eq by lra. apply Req_le. unfold Rdiv. ring.
  Qed.
  (** from a state close to [U 0] to a state close to [V] *)
  Lemma gauge_error s v V x y : (forall a x, G a x -> G (@exp_taylor RF I f dt (onestep_order s) a) x) -> (forall i, (i < onestep_order s)%nat -> G (vsub (f (U i)) (U (S i))) eps) ->
    G (vsub (expansion U dt (onestep_order s)) V) y -> G (vsub v (U O)) x ->
    G (vsub (@exp_taylor RF I f dt (onestep_order s) v) V) (x + (dt * eps * total kap T (onestep_order s) + y)).
  Proof.
    intros HS HU HV Hv.
    replace (vsub (@exp_taylor RF I f dt (onestep_order s) v) V) with
      (@vadd RF I (@exp_taylor RF I f dt (onestep_order s) (vsub v (U O)))
        (@vadd RF I (vsub (@exp_taylor RF I f dt (onestep_order s) (U O)) (expansion U dt (onestep_order s))) (vsub (expansion U dt (onestep_order s)) V))).
    - apply (g_add _ GG); [apply HS; auto|]. apply (g_add _ GG); auto. apply gauge_approx; auto.
    - unfold vsub at 1. rewrite exp_sub_linear by auto. apply functional_extensionality. intros i. unfold vsub, vadd, vscale. cbn [fadd fmul RF F].
      match goal with |- @eq _ ?a ?b => change (@eq R a b) end. ring.
  Qed.
End Steps.
