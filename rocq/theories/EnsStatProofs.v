(** Proofs about the sample statistics of ensemble_forecast. *)
From Coq Require Import List Arith Reals Lra Lia Psatz FunctionalExtensionality Permutation.
From Verif Require Import PyBase PyBaseFacts Scalars FieldFacts FDReal ForecastModel ForecastSpec ForecastProofs ForecastMore EnsembleProofs
  SchemesModel SchemesSpec SchemesProofs ModelProofs TangentSpec TangentProofs EnsStatSpec.
Import ListNotations.
Open Scope R_scope.

Lemma f2len {A B} (P : A -> B -> Prop) l m : Forall2 P l m -> length l = length m.
Proof. induction 1; cbn; congruence. Qed.

Lemma abs_sub x y a : Rabs x <= a -> Rabs y <= a -> Rabs (x - y) <= 2 * a.
Proof. intros H K. unfold Rminus. eapply Rle_trans; [apply Rabs_triang|]. rewrite Rabs_Ropp. lra. Qed.

(** ** algebra of the statistics *)
Section Algebra.
  Context {I : Type}.
  Definition scatter (vs : list (I -> R)) (m n : R) (i j : I) : R := fold_right (fun v a => (v i - m) * (v j - n) + a) 0 vs.
  Lemma ecov_scatter (vs : list (I -> R)) i j : ecov vs i j = scatter vs (emean vs i) (emean vs j) i j / (INR (length vs) - 1).
  Proof. reflexivity. Qed.
  Lemma INR_pos {A} (l : list A) : l <> [] -> 0 < INR (length l).
  Proof. intros H. apply lt_0_INR. destruct l; [congruence|cbn; lia]. Qed.

  Lemma total_affine (a : I -> R) h qs vs i : Forall2 (fun q v => v i = a i + h * q i) qs vs ->
    total vs i = INR (length qs) * a i + h * total qs i.
  Proof.
    induction 1 as [|q v qs vs E F IH]; [cbn; ring|]. unfold total in *. cbn [fold_right length]. rewrite S_INR, E, IH. ring.
  Qed.
  Lemma mean_affine (a : I -> R) h qs vs i : qs <> [] -> Forall2 (fun q v => v i = a i + h * q i) qs vs -> emean vs i = a i + h * emean qs i.
  Proof.
    intros N F. unfold emean. rewrite <- (f2len _ _ _ F). rewrite (total_affine a h qs vs i F). pose proof (INR_pos qs N). field. lra.
  Qed.
  Lemma cov_affine (a : I -> R) h qs vs i j : qs <> [] -> Forall2 (fun q v => v i = a i + h * q i) qs vs -> Forall2 (fun q v => v j = a j + h * q j) qs vs ->
    ecov vs i j = h ^ 2 * ecov qs i j.
  Proof.
    intros N Fi Fj. rewrite !ecov_scatter, <- (f2len _ _ _ Fi), (mean_affine a h qs vs i N Fi), (mean_affine a h qs vs j N Fj).
    unfold Rdiv. rewrite <- Rmult_assoc. f_equal. generalize (emean qs i) (emean qs j). intros m n.
    clear N. revert Fj. induction Fi as [|q v qs vs E F IH]; intros Fj; [cbn; ring|]. inversion Fj; subst. unfold scatter in *. cbn [fold_right].
    rewrite IH by assumption. rewrite E. match goal with H : v j = _ |- _ => rewrite H end. ring.
  Qed.
  Lemma total_close eps qs zs (i : I) : Forall2 (fun q z => Rabs (q i - z i) <= eps) qs zs -> Rabs (total qs i - total zs i) <= INR (length qs) * eps.
  Proof.
    induction 1 as [|q z qs zs E F IH]; [cbn; rewrite Rminus_0_r, Rabs_R0; lra|]. unfold total in *. cbn [fold_right length]. rewrite S_INR.
    match goal with |- Rabs (?a + ?b - (?c + ?d)) <= _ => replace (a + b - (c + d)) with ((a - c) + (b - d)) by ring end.
    eapply Rle_trans; [apply Rabs_triang|]. lra.
  Qed.
  Lemma mean_close eps qs zs (i : I) : qs <> [] -> Forall2 (fun q z => Rabs (q i - z i) <= eps) qs zs -> Rabs (emean qs i - emean zs i) <= eps.
  Proof.
    intros N F. pose proof (total_close eps qs zs i F) as T. pose proof (INR_pos qs N) as P. unfold emean. rewrite <- (f2len _ _ _ F).
    replace (total qs i / INR (length qs) - total zs i / INR (length qs)) with ((total qs i - total zs i) * / INR (length qs)) by (field; lra).
    rewrite Rabs_mult, (Rabs_pos_eq (/ _)) by (left; apply Rinv_0_lt_compat; exact P).
    apply (Rmult_le_reg_r (INR (length qs))); [exact P|]. rewrite Rmult_assoc, Rinv_l by lra. lra.
  Qed.
  Lemma mean_bound B zs (i : I) : zs <> [] -> (forall z, In z zs -> Rabs (z i) <= B) -> Rabs (emean zs i) <= B.
  Proof.
    intros N H. assert (F : Forall2 (fun q z : I -> R => Rabs (q i - z i) <= B) zs (map (fun _ _ => 0) zs)).
    { clear N. induction zs as [|z zs IH]; constructor; [rewrite Rminus_0_r; apply H; left; reflexivity|]. apply IH. intros; apply H; right; assumption. }
    pose proof (mean_close B zs _ i N F) as X. replace (emean (map (fun (_ : I -> R) (_ : I) => 0) zs) i) with 0 in X; [rewrite Rminus_0_r in X; exact X|].
    symmetry. unfold emean. replace (total (map (fun (_ : I -> R) (_ : I) => 0) zs) i) with 0; [unfold Rdiv; ring|].
    clear. induction zs as [|z zs IH]; [reflexivity|]. unfold total in *. cbn. rewrite <- IH. ring.
  Qed.
  Lemma cov_close eps B qs zs (i j : I) : (2 <= length qs)%nat -> 0 <= eps -> 0 <= B ->
    Forall2 (fun q z => Rabs (q i - z i) <= eps) qs zs -> Forall2 (fun q z => Rabs (q j - z j) <= eps) qs zs ->
    (forall z, In z zs -> Rabs (z i) <= B) -> (forall z, In z zs -> Rabs (z j) <= B) ->
    Rabs (ecov qs i j - ecov zs i j) <= 2 * (8 * eps * B + 4 * eps ^ 2).
  Proof.
    intros N E0 B0 Fi Fj Bi Bj. rewrite !ecov_scatter, <- (f2len _ _ _ Fi).
    assert (Nq : qs <> []) by (intros ->; cbn in N; lia).
    assert (Nz : zs <> []) by (intros ->; apply f2len in Fi; cbn in Fi; lia).
    pose proof (mean_close eps qs zs i Nq Fi) as Mi. pose proof (mean_close eps qs zs j Nq Fj) as Mj.
    pose proof (mean_bound B zs i Nz Bi) as MBi. pose proof (mean_bound B zs j Nz Bj) as MBj.
    assert (S : Rabs (scatter qs (emean qs i) (emean qs j) i j - scatter zs (emean zs i) (emean zs j) i j) <= INR (length qs) * (8 * eps * B + 4 * eps ^ 2)).
    { revert Mi Mj MBi MBj. generalize (emean qs i) (emean qs j) (emean zs i) (emean zs j). intros a b c d Ma Mb Bc Bd.
      clear N Nq Nz. revert Fj Bi Bj. induction Fi as [|q z qs zs E F IH]; intros Fj Bi Bj.
      - cbn. rewrite Rminus_0_r, Rabs_R0. lra.
      - inversion Fj as [|? ? ? ? Ej Fj']; subst. unfold scatter in *. cbn [fold_right length]. rewrite S_INR.
        specialize (IH Fj' ltac:(intros; apply Bi; right; assumption) ltac:(intros; apply Bj; right; assumption)).
        specialize (Bi z (or_introl eq_refl)). specialize (Bj z (or_introl eq_refl)).
        match goal with |- Rabs (?p + ?x - (?r + ?y)) <= _ => replace (p + x - (r + y)) with ((p - r) + (x - y)) by ring end.
        eapply Rle_trans; [apply Rabs_triang|].
        assert (K : Rabs ((q i - a) * (q j - b) - (z i - c) * (z j - d)) <= 8 * eps * B + 4 * eps ^ 2).
        { replace ((q i - a) * (q j - b) - (z i - c) * (z j - d)) with
            (((q i - z i) - (a - c)) * (z j - d) + (z i - c) * ((q j - z j) - (b - d)) + ((q i - z i) - (a - c)) * ((q j - z j) - (b - d))) by ring.
          assert (T1 : Rabs ((q i - z i) - (a - c)) <= 2 * eps) by (apply abs_sub; assumption).
          assert (T2 : Rabs ((q j - z j) - (b - d)) <= 2 * eps) by (apply abs_sub; assumption).
          assert (T3 : Rabs (z i - c) <= 2 * B) by (apply abs_sub; assumption).
          assert (T4 : Rabs (z j - d) <= 2 * B) by (apply abs_sub; assumption).
          eapply Rle_trans; [apply Rabs_triang|]. eapply Rle_trans; [apply Rplus_le_compat_r; apply Rabs_triang|]. rewrite !Rabs_mult.
          assert (P1 := Rmult_le_compat _ _ _ _ (Rabs_pos _) (Rabs_pos _) T1 T4). assert (P2 := Rmult_le_compat _ _ _ _ (Rabs_pos _) (Rabs_pos _) T3 T2).
          assert (P3 := Rmult_le_compat _ _ _ _ (Rabs_pos _) (Rabs_pos _) T1 T2). lra. }
        lra. }
    assert (N2 : 2 <= INR (length qs)) by (replace 2 with (INR 2) by (cbn; lra); apply le_INR; exact N).
    set (n := INR (length qs)) in *. set (x := scatter qs _ _ i j) in *. set (y := scatter zs _ _ i j) in *.
    replace (x / (n - 1) - y / (n - 1)) with ((x - y) * / (n - 1)) by (field; lra).
    rewrite Rabs_mult, (Rabs_pos_eq (/ _)) by (left; apply Rinv_0_lt_compat; lra).
    apply (Rmult_le_reg_r (n - 1)); [lra|]. rewrite Rmult_assoc, Rinv_l by lra. set (k := 8 * eps * B + 4 * eps ^ 2) in *.
    assert (K0 : 0 <= k) by (unfold k; assert (0 <= eps * B) by (apply Rmult_le_pos; lra); pose proof (pow2_ge_0 eps); lra).
    assert (n * k <= 2 * k * (n - 1)) by nra. lra.
  Qed.
End Algebra.

(** ** the tangent forecast is linear in the perturbation *)
Section Linear.
  Context {I : Type}.
  Variable D : I -> Prop.
  Variables (f : R -> (I -> R) -> I -> R) (df : R -> (I -> R) -> (I -> R) -> I -> R).
  Hypothesis TG : tangent D f df.
  Variable c : R.
  Definition lin3 (a b r : I -> R) : Prop := forall i, D i -> r i = a i + c * b i.
  Lemma lin_add a b r a' b' r' : lin3 a b r -> lin3 a' b' r' -> lin3 (@vadd RF I a a') (@vadd RF I b b') (@vadd RF I r r').
  Proof. intros H K i Hi. change (r i + r' i = a i + a' i + c * (b i + b' i)). rewrite (H i Hi), (K i Hi). ring. Qed.
  Lemma lin_scale k a b r : lin3 a b r -> lin3 (@vscale RF I k a) (@vscale RF I k b) (@vscale RF I k r).
  Proof. intros H i Hi. change (k * r i = k * a i + c * (k * b i)). rewrite (H i Hi). change (F RF) with R in *. ring. Qed.
  Lemma lin_axpy k a b r a' b' r' : lin3 a b r -> lin3 a' b' r' ->
    lin3 (@vadd RF I a (@vscale RF I k a')) (@vadd RF I b (@vscale RF I k b')) (@vadd RF I r (@vscale RF I k r')).
  Proof. intros H K. apply lin_add; [exact H|apply lin_scale; exact K]. Qed.
  Lemma lin_df t u a b r : lin3 a b r -> lin3 (df t u a) (df t u b) (df t u r).
  Proof.
    intros H i Hi. rewrite <- (tg_linear _ _ _ TG t u c a b i Hi).
    set (m := fun j => a j + c * b j). set (e := fun j => r j + (-1) * m j).
    assert (Se : size D 0 e). { intros j Hj. unfold e, m. rewrite (H j Hj). replace (a j + c * b j + -1 * (a j + c * b j)) with 0 by ring. rewrite Rabs_R0. lra. }
    destruct (tg_bounded _ _ _ TG t u) as (B & HB). pose proof (HB e 0 Se i Hi) as X. rewrite Rmult_0_r in X.
    assert (Z : df t u e i = 0) by (unfold Rabs in X; destruct Rcase_abs; lra).
    unfold e in Z. rewrite (tg_linear _ _ _ TG t u (-1) r m i Hi) in Z. lra.
  Qed.
  Variable s : onestep.
  Notation step := (@onestep_fun RF (I + I) s (tangent_trend f df)).
  Lemma both_parts (z : I + I -> R) : z = both (lpart z) (rpart z).
  Proof. apply functional_extensionality. intros [i|i]; reflexivity. Qed.
  Lemma step_lin t u a b r d : lin3 a b r -> exists u' a' b' r', step t (both u a) d = Ok (both u' a') /\ step t (both u b) d = Ok (both u' b') /\
    step t (both u r) d = Ok (both u' r') /\ lin3 a' b' r'.
  Proof.
    intros H.
    assert (Q : exists z1 z2 z3, step t (both u a) d = Ok z1 /\ step t (both u b) d = Ok z2 /\ step t (both u r) d = Ok z3 /\
      lpart z2 = lpart z1 /\ lpart z3 = lpart z1 /\ lin3 (rpart z1) (rpart z2) (rpart z3)).
    { destruct s; do 3 eexists; (split; [reflexivity|]); (split; [reflexivity|]); (split; [reflexivity|]); (split; [reflexivity|]); (split; [reflexivity|]).
      - exact (lin_axpy d _ _ _ _ _ _ H (lin_df t u _ _ _ H)).
      - exact (lin_axpy d _ _ _ _ _ _ H (lin_df (@fadd RF t (@fmul RF half d)) _ _ _ _ (lin_axpy (@fmul RF d half) _ _ _ _ _ _ H (lin_df t u _ _ _ H)))).
      - pose proof (lin_df t u _ _ _ H) as K1.
        pose proof (lin_axpy (@fmul RF d half) _ _ _ _ _ _ H K1) as J1.
        match goal with |- lin3 ?x _ _ => idtac end.
        set (u1 := @vadd RF I u (@vscale RF I (@fmul RF d half) (f t u))).
        pose proof (lin_df (@fadd RF t (@fmul RF d half)) u1 _ _ _ J1) as K2.
        pose proof (lin_axpy (@fmul RF d half) _ _ _ _ _ _ H K2) as J2.
        set (u2 := @vadd RF I u (@vscale RF I (@fmul RF d half) (f (@fadd RF t (@fmul RF d half)) u1))).
        pose proof (lin_df (@fadd RF t (@fmul RF d half)) u2 _ _ _ J2) as K3.
        pose proof (lin_axpy d _ _ _ _ _ _ H K3) as J3.
        set (u3 := @vadd RF I u (@vscale RF I d (f (@fadd RF t (@fmul RF d half)) u2))).
        pose proof (lin_df (@fadd RF t d) u3 _ _ _ J3) as K4.
        exact (lin_axpy (@fdiv RF d (@fnat RF 6)) _ _ _ _ _ _ H
          (lin_add _ _ _ _ _ _ (lin_axpy (@fnat RF 2) _ _ _ _ _ _ (lin_axpy (@fnat RF 2) _ _ _ _ _ _ K1 K2) K3) K4)). }
    destruct Q as (z1 & z2 & z3 & E1 & E2 & E3 & L2 & L3 & H'). exists (lpart z1), (rpart z1), (rpart z2), (rpart z3).
    rewrite E1, E2, E3. rewrite (both_parts z1), (both_parts z2), (both_parts z3), L2, L3. auto.
  Qed.
End Linear.

(** ** ensemble_forecast *)
Section Ens.
  Context {I : Type}.
  Variable s : onestep.
  Variables (w : list R) (sv : saved R).
  Hypothesis Hw : w <> [].
  Hypothesis Hs : sv <> SOther.
  Lemma ens_values (f : R -> (I -> R) -> I -> R) ens states : pool_ens Req_EM_T Rminus (@onestep_fun RF I s) (@pure RF I f) ens ->
    exists d, ens w states sv = Ok d /\ forall t, In t w -> is_saved w sv t -> exists vs, dget Req_EM_T t d = Some vs /\
      Forall2 (fun st v => exists fc, forecast Req_EM_T Rminus (@onestep_fun RF I s) (@pure RF I f) w st sv = Ok fc /\ dget Req_EM_T t fc = Some v) states vs.
  Proof.
    intros He.
    destruct (proj2 (ensemble_ok_iff Req_EM_T Rminus (@onestep_fun RF I s) (@pure RF I f) w sv states Hs)) as (d & Ed).
    { intros st _. apply (forecast_total Req_EM_T Rminus (@onestep_fun RF I s) (@pure RF I f)); auto. intros. apply (pure_total RF s f). }
    exists d. split; [exact (pool_ens_Ok _ _ _ _ _ _ _ _ _ He Ed)|]. intros t Ht Hv.
    exact (ensemble_memberwise Req_EM_T Rminus _ _ w sv states d t Ed Ht Hv).
  Qed.

  (** affine dynamics *)
  Notation cast L := (forecast Req_EM_T Rminus (@onestep_fun RF I s) (@pure RF I L)).
  Definition arrives (L : R -> (I -> R) -> I -> R) (t : R) (p z : I -> R) : Prop := exists d, cast L w p sv = Ok d /\ dget Req_EM_T t d = Some z.
  Lemma arrives_ex L t p : In t w -> is_saved w sv t -> exists z, arrives L t p z.
  Proof.
    intros Ht Hv.
    destruct (forecast_total Req_EM_T Rminus (@onestep_fun RF I s) (@pure RF I L) ltac:(intros; apply (pure_total RF s L)) w p sv Hw Hs) as (d & Ed).
    destruct (forecast_get Req_EM_T Rminus _ _ w _ sv d t Ed Hv Ht) as (z & Gz). exists z, d. auto.
  Qed.
  Lemma arrives_det L t p z z' : arrives L t p z -> arrives L t p z' -> z = z'.
  Proof. intros (d & E & G) (d' & E' & G'). rewrite E in E'. injection E' as <-. congruence. Qed.
  Lemma arrives_affine f L t h u p a b : @affine_with RF I f L -> arrives f t u a -> arrives L t p b -> arrives f t (fun i => u i + h * p i) (fun i => a i + h * b i).
  Proof.
    intros Ha (d0 & E0 & G0) (d1 & E1 & G1). destruct (forecast_affine RF Req_EM_T s f L h w u p sv d0 d1 t a b Ha E0 E1 G0 G1) as (d2 & E2 & G2).
    exists d2. auto.
  Qed.
  Lemma affine_linear (f L : R -> (I -> R) -> I -> R) : @affine_with RF I f L -> @affine_with RF I L L.
  Proof.
    intros Ha t u h p. pose proof (Ha t u (1 : RF) (@vadd RF I u (@vscale RF I h p))) as H1.
    pose proof (Ha t (@vadd RF I u (@vscale RF I (1 : RF) u)) h p) as H2. pose proof (Ha t u (1 : RF) u) as H3.
    assert (E : @vadd RF I u (@vscale RF I (1 : RF) (@vadd RF I u (@vscale RF I h p))) = @vadd RF I (@vadd RF I u (@vscale RF I (1 : RF) u)) (@vscale RF I h p)).
    { apply functional_extensionality. intros i. unfold vadd, vscale. cbn. ring. }
    pose proof (eq_trans (eq_sym H2) (eq_trans (eq_sym (f_equal (f t) E)) H1)) as X. apply functional_extensionality. intros i.
    apply (f_equal (fun g => g i)) in X. apply (f_equal (fun g => g i)) in H3. revert X H3. clear. unfold vadd, vscale. cbn. intros X H3. lra.
  Qed.
  Lemma arrives_zero L t z : @affine_with RF I L L -> arrives L t (fun _ => 0) z -> z = fun _ => 0.
  Proof.
    intros Ha H. pose proof (arrives_affine L L t (-1) _ _ _ _ Ha H H) as H'.
    assert (E : (fun _ : I => 0 + -1 * 0) = (fun _ => 0)) by (apply functional_extensionality; intros; ring). cbv beta in H'. rewrite E in H'.
    pose proof (arrives_det _ _ _ _ _ H H') as X. rewrite X. apply functional_extensionality. intros i. ring.
  Qed.
  Lemma arrives_total L t ps zs : @affine_with RF I L L -> In t w -> is_saved w sv t -> Forall2 (arrives L t) ps zs -> arrives L t (total ps) (total zs).
  Proof.
    intros Ha Ht Hv. induction 1 as [|p z ps zs H F IH].
    - destruct (arrives_ex L t (fun _ => 0) Ht Hv) as (z & Hz). pose proof (arrives_zero L t z Ha Hz). subst z. exact Hz.
    - pose proof (arrives_affine L L t 1 _ _ _ _ Ha H IH) as X.
      assert (E : forall p (ps : list (I -> R)), total (p :: ps) = fun i => p i + 1 * total ps i) by (intros; apply functional_extensionality; intros; unfold total; cbn; ring).
      rewrite !E. exact X.
  Qed.
  Lemma total_anomaly (states : list (I -> R)) : states <> [] -> total (map (fun st i => st i - emean states i) states) = fun _ => 0.
  Proof.
    intros N. apply functional_extensionality. intros i. pose proof (INR_pos states N) as P.
    assert (H : forall m (l : list (I -> R)), total (map (fun st i => st i - m i) l) i = total l i - INR (length l) * m i).
    { intros m l. induction l as [|x l IH]; [cbn; ring|]. unfold total in *. cbn [fold_right map length]. rewrite S_INR, IH. ring. }
    rewrite H. unfold emean. field. lra.
  Qed.
  Lemma ens_affine (f L : R -> (I -> R) -> I -> R) ens states : @affine_with RF I f L -> states <> [] ->
    pool_ens Req_EM_T Rminus (@onestep_fun RF I s) (@pure RF I f) ens ->
    exists d, ens w states sv = Ok d /\ forall t, In t w -> is_saved w sv t -> exists vs a zs, dget Req_EM_T t d = Some vs /\
      arrives f t (emean states) a /\ Forall2 (fun st z => arrives L t (fun i => st i - emean states i) z) states zs /\
      (forall i, emean vs i = a i) /\ (forall i j, ecov vs i j = ecov zs i j).
  Proof.
    intros Ha N He. destruct (ens_values f ens states He) as (d & Ed & G). exists d. split; [exact Ed|]. intros t Ht Hv.
    destruct (G t Ht Hv) as (vs & Gv & F2). destruct (arrives_ex f t (emean states) Ht Hv) as (a & Aa).
    assert (Q : exists zs, Forall2 (fun st z => arrives L t (fun i => st i - emean states i) z) states zs /\ Forall2 (fun z v => forall i, v i = a i + 1 * z i) zs vs).
    { revert Aa. generalize (emean states). intros m Aa. clear N Ed G He Gv. induction F2 as [|x v states vs H F IH]; [exists []; split; constructor|].
      destruct IH as (zs & H1 & H2). destruct (arrives_ex L t (fun i => x i - m i) Ht Hv) as (z & Hz). exists (z :: zs).
      split; constructor; auto. intros i. pose proof (arrives_affine f L t 1 m _ a z Ha Aa Hz) as X.
      assert (E : forall x m : I -> R, (fun i0 => m i0 + 1 * (x i0 - m i0)) = x) by (intros; apply functional_extensionality; intros; ring).
      cbv beta in X. rewrite (E x m) in X.
      rewrite (arrives_det _ _ _ _ _ H X). reflexivity. }
    destruct Q as (zs & F & Fv). exists vs, a, zs. split; [exact Gv|]. split; [exact Aa|]. split; [exact F|].
    assert (Nz : zs <> []) by (intros ->; destruct states; [congruence|inversion F]).
    assert (Fi : forall i, Forall2 (fun z v => v i = a i + 1 * z i) zs vs) by (intros i; clear - Fv; induction Fv; constructor; auto).
    split; [|intros i j; rewrite (cov_affine a 1 zs vs i j Nz (Fi i) (Fi j)); ring].
    intros i. rewrite (mean_affine a 1 zs vs i Nz (Fi i)).
    assert (T : total zs = fun _ => 0).
    { apply (arrives_zero L t); [exact (affine_linear f L Ha)|]. rewrite <- (total_anomaly states N).
      apply arrives_total; auto; [exact (affine_linear f L Ha)|]. clear - F. revert F. generalize (emean states). intros m F. induction F; constructor; auto. }
    unfold emean. rewrite T. unfold Rdiv. ring.
  Qed.
End Ens.

Lemma quot_back (h v a : R) : h <> 0 -> v = a + h * ((v - a) / h).
Proof. intros H. field. exact H. Qed.

(** ** small ensembles *)
Section Small.
  Context {I : Type}.
  Variable D : I -> Prop.
  Variables (f : R -> (I -> R) -> I -> R) (df : R -> (I -> R) -> (I -> R) -> I -> R).
  Hypothesis TG : tangent D f df.
  Variable s : onestep.
  Variables (w : list R) (sv : saved R).
  Hypothesis Hw : w <> [].
  Hypothesis Hs : sv <> SOther.
  Notation fcast := (forecast Req_EM_T Rminus (@onestep_fun RF I s) (@pure RF I f)).
  Notation tcast := (forecast Req_EM_T Rminus (@onestep_fun RF (I + I) s) (tangent_trend f df)).
  Definition carried (x : I -> R) (t : R) (p z : I -> R) : Prop :=
    exists dz y, tcast w (both x p) sv = Ok dz /\ dget Req_EM_T t dz = Some y /\ z = (fun i => y (inr i)).
  Lemma tangent_total_step t z d : exists z', @onestep_fun RF (I + I) s (tangent_trend f df) t z d = Ok z'.
  Proof. destruct s; eexists; reflexivity. Qed.
  Lemma carried_ex x t p : In t w -> is_saved w sv t -> exists z, carried x t p z.
  Proof.
    intros Ht Hv.
    destruct (forecast_total Req_EM_T Rminus (@onestep_fun RF (I + I) s) (tangent_trend f df) tangent_total_step w (both x p) sv Hw Hs) as (d & Ed).
    destruct (forecast_get Req_EM_T Rminus _ _ w _ sv d t Ed Hv Ht) as (z & Gz). exists (fun i => z (inr i)), d, z. auto.
  Qed.
  Lemma carried_det x t p z z' : carried x t p z -> carried x t p z' -> z = z'.
  Proof. intros (d & y & E & G & ->) (d' & y' & E' & G' & ->). rewrite E in E'. injection E' as <-. rewrite G in G'. injection G' as <-. reflexivity. Qed.

  (** the three perturbed trajectories run together *)
  Definition three (_ : unit) (t : R) (z : (I + I -> R) * (I + I -> R) * (I + I -> R)) (d : R) : res ((I + I -> R) * (I + I -> R) * (I + I -> R)) :=
    match @onestep_fun RF (I + I) s (tangent_trend f df) t (fst (fst z)) d, @onestep_fun RF (I + I) s (tangent_trend f df) t (snd (fst z)) d,
          @onestep_fun RF (I + I) s (tangent_trend f df) t (snd z) d with
    | Ok a, Ok b, Ok c => Ok (a, b, c) | Err e, _, _ => Err e | _, Err e, _ => Err e | _, _, Err e => Err e end.
  Lemma three_total t z d : exists z', three tt t z d = Ok z'.
  Proof.
    unfold three. destruct (tangent_total_step t (fst (fst z)) d) as (a & ->), (tangent_total_step t (snd (fst z)) d) as (b & ->), (tangent_total_step t (snd z) d) as (e & ->).
    eexists; reflexivity.
  Qed.
  Lemma three_inv t z d z' : three tt t z d = Ok z' -> @onestep_fun RF (I + I) s (tangent_trend f df) t (fst (fst z)) d = Ok (fst (fst z')) /\
    @onestep_fun RF (I + I) s (tangent_trend f df) t (snd (fst z)) d = Ok (snd (fst z')) /\ @onestep_fun RF (I + I) s (tangent_trend f df) t (snd z) d = Ok (snd z').
  Proof.
    unfold three. destruct (tangent_total_step t (fst (fst z)) d) as (a & ->), (tangent_total_step t (snd (fst z)) d) as (b & ->), (tangent_total_step t (snd z) d) as (e & ->).
    intros E. injection E as <-. auto.
  Qed.
  Lemma three_follow (pr : (I + I -> R) * (I + I -> R) * (I + I -> R) -> I + I -> R) :
    (forall t z d z', three tt t z d = Ok z' -> @onestep_fun RF (I + I) s (tangent_trend f df) t (pr z) d = Ok (pr z')) ->
    forall z0 d0 t z, forecast Req_EM_T Rminus three tt w z0 sv = Ok d0 -> dget Req_EM_T t d0 = Some z ->
    exists dz, tcast w (pr z0) sv = Ok dz /\ dget Req_EM_T t dz = Some (pr z).
  Proof.
    intros H z0 d0 t z E G.
    pose proof (forecast_sim Req_EM_T Rminus three tt (@onestep_fun RF (I + I) s) (tangent_trend f df) (fun z a => a = pr z)) as S.
    specialize (S ltac:(intros t' z' a' d' ->; destruct (three_total t' z' d') as (z'' & E'); rewrite (H _ _ _ _ E'), E'; reflexivity) w sv z0 (pr z0) eq_refl).
    rewrite E in S. destruct (tcast w (pr z0) sv) as [dz|] eqn:EZ; [|destruct S]. cbn in S.
    destruct (dget_rel Req_EM_T _ _ _ S t z G) as (a & GA & ->). exists dz. auto.
  Qed.
  Lemma carried_linear c x t p q r zp zq zr : In t w -> is_saved w sv t -> lin3 D c p q r ->
    carried x t p zp -> carried x t q zq -> carried x t r zr -> lin3 D c zp zq zr.
  Proof.
    intros Ht Hv H Cp Cq Cr.
    destruct (forecast_total Req_EM_T Rminus three tt three_total w (both x p, both x q, both x r) sv Hw Hs) as (d & Ed).
    destruct (forecast_get Req_EM_T Rminus _ _ w _ sv d t Ed Hv Ht) as (z & Gz).
    assert (K : exists u a b e, z = (both u a, both u b, both u e) /\ lin3 D c a b e).
    { pose proof (forecast_sim Req_EM_T Rminus three tt three tt
        (fun z z' => z = z' /\ exists u a b e, z = (both u a, both u b, both u e) /\ lin3 D c a b e)) as S.
      specialize (S ltac:(intros t' z' z0' d' [<- (u & a & b & e & -> & L)]; unfold three; cbn [fst snd];
        destruct (step_lin D f df TG c s t' u a b e d' L) as (u' & a' & b' & e' & -> & -> & -> & L'); cbn; split; [reflexivity|]; exists u', a', b', e'; auto)
        w sv _ (both x p, both x q, both x r) (conj eq_refl (ex_intro _ x (ex_intro _ p (ex_intro _ q (ex_intro _ r (conj eq_refl H))))))).
      rewrite Ed in S. cbn in S. destruct (dget_rel Req_EM_T _ _ _ S t z Gz) as (z' & _ & _ & K). exact K. }
    destruct K as (u & a & b & e & -> & L).
    destruct (three_follow (fun z => fst (fst z)) ltac:(intros t' z' d' z'' E; apply three_inv in E; tauto) _ _ t _ Ed Gz) as (d1 & E1 & G1).
    destruct (three_follow (fun z => snd (fst z)) ltac:(intros t' z' d' z'' E; apply three_inv in E; tauto) _ _ t _ Ed Gz) as (d2 & E2 & G2).
    destruct (three_follow snd ltac:(intros t' z' d' z'' E; apply three_inv in E; tauto) _ _ t _ Ed Gz) as (d3 & E3 & G3).
    cbn [fst snd] in *.
    rewrite (carried_det x t p zp a Cp (ex_intro _ d1 (ex_intro _ (both u a) (conj E1 (conj G1 eq_refl))))).
    rewrite (carried_det x t q zq b Cq (ex_intro _ d2 (ex_intro _ (both u b) (conj E2 (conj G2 eq_refl))))).
    rewrite (carried_det x t r zr e Cr (ex_intro _ d3 (ex_intro _ (both u e) (conj E3 (conj G3 eq_refl))))). exact L.
  Qed.
  Lemma carried_total x t ps zs : In t w -> is_saved w sv t -> Forall2 (carried x t) ps zs ->
    forall p z, (forall i, D i -> p i = total ps i) -> carried x t p z -> forall i, D i -> z i = total zs i.
  Proof.
    intros Ht Hv. induction 1 as [|q y ps zs H F IH]; intros p z Hp Cz i Hi.
    - pose proof (carried_linear 1 x t p p p z z z Ht Hv ltac:(intros j Hj; rewrite (Hp j Hj); cbn; ring) Cz Cz Cz i Hi) as X. cbn. lra.
    - destruct (carried_ex x t (total ps) Ht Hv) as (y' & Hy'). specialize (IH (total ps) y' ltac:(reflexivity) Hy' i Hi).
      pose proof (carried_linear 1 x t q (total ps) p y y' z Ht Hv ltac:(intros j Hj; rewrite (Hp j Hj); unfold total; cbn; ring) H Hy' Cz i Hi) as X.
      rewrite X, IH. unfold total. cbn. ring.
  Qed.
  Lemma carried_bounded x t p z : In t w -> is_saved w sv t -> (exists P, size D P p) -> carried x t p z -> exists Q, size D Q z.
  Proof.
    intros Ht Hv (P & HP) (dz & y & EZ & GZ & ->).
    destruct (forecast_total Req_EM_T Rminus (fun (_ : unit) t U d => Ok (family f s t U d)) tt
      ltac:(intros; eexists; reflexivity) w (fun h i => x i + h * p i) sv Hw Hs) as (dF & EF).
    destruct (forecast_get Req_EM_T Rminus _ tt w _ sv dF t EF Hv Ht) as (U & GU).
    pose proof (forecast_sim Req_EM_T Rminus (fun (_ : unit) t U d => Ok (family f s t U d)) tt (@onestep_fun RF (I + I) s) (tangent_trend f df)
      (fun U z => jet D U (lpart z) (rpart z))) as S1.
    specialize (S1 ltac:(intros t' U' z' d' J; destruct (step_jet D f df TG s t' U' z' d' J) as (z'' & E & J'); rewrite E; exact J')
      w sv (fun h i => x i + h * p i) (both x p) (jet_line D x p P HP)).
    rewrite EF, EZ in S1. cbn in S1.
    destruct (dget_rel Req_EM_T _ _ _ S1 t U GU) as (z & GZ' & ((Q & Q0 & HQ) & _)). rewrite GZ in GZ'. injection GZ' as <-. exists Q. exact HQ.
  Qed.
End Small.

Section Main.
  Context {I : Type}.
  Variable D : I -> Prop.
  Variables (f : R -> (I -> R) -> I -> R) (df : R -> (I -> R) -> (I -> R) -> I -> R).
  Hypothesis TG : tangent D f df.
  Variable s : onestep.
  Variables (w : list R) (sv : saved R).
  Hypothesis Hw : w <> [].
  Hypothesis Hs : sv <> SOther.
  Notation fcast := (forecast Req_EM_T Rminus (@onestep_fun RF I s) (@pure RF I f)).
  Notation carried := (carried f df s w sv).
  (** the quotient of a member is within C h of the carried perturbation *)
  Definition near_z x (k : (I -> R) * R) (C h0 : R) : Prop := In (snd k) w -> exists a z fc,
    fcast w x sv = Ok fc /\ dget Req_EM_T (snd k) fc = Some a /\ carried x (snd k) (fst k) z /\ size D C z /\ 0 <= C /\
    forall h, 0 < h <= h0 -> exists d b, fcast w (fun i => x i + h * fst k i) sv = Ok d /\ dget Req_EM_T (snd k) d = Some b /\
      apart D (C * h) (fun i => (b i - a i) / h) z.
  Lemma near_ex x p t : (exists P, size D P p) -> is_saved w sv t -> exists C h0, 0 < h0 /\ near_z x (p, t) C h0.
  Proof.
    intros HP Hv. destruct (in_dec Req_EM_T t w) as [Hin|Hin]; [|exists 0, 1; split; [lra|intros Q; contradiction]].
    destruct (pair_converges D f df TG s w sv Hw Hs x p t HP Hin Hv) as (C & h0 & H0 & H).
    destruct (carried_ex f df s w sv Hw Hs x t p Hin Hv) as (z & Hz). destruct (carried_bounded D f df TG s w sv Hw Hs x t p z Hin Hv HP Hz) as (Q & HQ).
    destruct (arrives_ex s w sv Hw Hs f t x Hin Hv) as (a & fc & Ea & Ga).
    exists (Rmax (Rmax C Q) 0), h0. split; [exact H0|]. intros _. cbn [fst snd]. exists a, z, fc. split; [exact Ea|]. split; [exact Ga|]. split; [exact Hz|].
    split; [intros i Hi; specialize (HQ i Hi); pose proof (Rmax_r C Q); pose proof (Rmax_l (Rmax C Q) 0); lra|]. split; [apply Rmax_r|].
    intros h Hh. destruct (H h Hh) as (d & fc' & dz & b & a' & z' & E1 & G1 & E2 & G2 & E3 & G3 & A). exists d, b. split; [exact E1|]. split; [exact G1|].
    pose proof (eq_trans (eq_sym E2) Ea) as X. injection X as ->. pose proof (eq_trans (eq_sym G2) Ga) as X. injection X as ->.
    rewrite (carried_det f df s w sv x t p z _ Hz (ex_intro _ dz (ex_intro _ z' (conj E3 (conj G3 eq_refl))))).
    intros i Hi. specialize (A i Hi). pose proof (Rmax_l C Q). pose proof (Rmax_l (Rmax C Q) 0).
    assert (C * h <= Rmax (Rmax C Q) 0 * h) by (apply Rmult_le_compat_r; lra).
    eapply Rle_trans; [exact A|assumption].
  Qed.
  Lemma ens_small x perts l : saved_list w sv = Some l -> (2 <= length perts)%nat -> (forall p, In p perts -> exists P, size D P p) ->
    exists C h0, 0 < h0 /\ forall h ens, 0 < h <= h0 -> pool_ens Req_EM_T Rminus (@onestep_fun RF I s) (@pure RF I f) ens ->
    exists d, ens w (map (fun p i => x i + h * p i) perts) sv = Ok d /\
    forall t, In t l -> In t w -> exists vs fc a zs, dget Req_EM_T t d = Some vs /\ fcast w x sv = Ok fc /\ dget Req_EM_T t fc = Some a /\
      Forall2 (carried x t) perts zs /\
      (forall i, D i -> Rabs (emean vs i - (a i + h * emean zs i)) <= C * h ^ 2) /\
      (forall i j, D i -> D j -> Rabs (ecov vs i j / h ^ 2 - ecov zs i j) <= C * h) /\
      ((forall i, D i -> emean perts i = 0) -> forall i, D i -> Rabs (emean vs i - a i) <= C * h ^ 2).
  Proof.
    intros Hl N HP.
    destruct (uniform (near_z x) (list_prod perts l)) as (C & h0 & H0 & HC).
    { intros [p t] C h0 C' h0' HCC Hh H Hin. destruct (H Hin) as (a & z & fc & E1 & E2 & E3 & E4 & P0 & E5). exists a, z, fc. repeat (split; [assumption|]).
      split; [intros i Hi; specialize (E4 i Hi); lra|]. split; [lra|]. intros h Hh'. destruct (E5 h ltac:(lra)) as (d & b & F1 & F2 & F3). exists d, b.
      split; [exact F1|]. split; [exact F2|]. intros i Hi. specialize (F3 i Hi). assert (C * h <= C' * h) by (apply Rmult_le_compat_r; lra). lra. }
    { intros [p t] Hx. apply in_prod_iff in Hx as [Hp Ht]. apply near_ex; auto. apply (saved_list_spec _ _ _ t Hl). exact Ht. }
    set (B := Rmax C 0). assert (B0 : 0 <= B) by apply Rmax_r. assert (CB : C <= B) by apply Rmax_l.
    set (E := B + 2 * (8 * B * B + 4 * B ^ 2 * h0)).
    assert (BB : 0 <= B * B) by (apply Rmult_le_pos; lra). assert (B2 : 0 <= B ^ 2 * h0) by (apply Rmult_le_pos; [apply pow2_ge_0|lra]).
    exists E, h0. split; [exact H0|]. intros h ens Hh He.
    destruct (ens_values s w sv Hw Hs f ens (map (fun p i => x i + h * p i) perts) He) as (d & Ed & G). exists d. split; [exact Ed|].
    intros t Ht Hin. assert (Hv : is_saved w sv t) by (apply (saved_list_spec _ _ _ t Hl); exact Ht).
    destruct (G t Hin Hv) as (vs & Gv & F2). destruct (arrives_ex s w sv Hw Hs f t x Hin Hv) as (a & fc & Ea & Ga).
    assert (Q : exists qs zs, Forall2 (carried x t) perts zs /\ Forall2 (fun q v => forall i, v i = a i + h * q i) qs vs /\
      Forall2 (fun q z => apart D (B * h) q z) qs zs /\ (forall z, In z zs -> size D B z)).
    { assert (HC' : forall p, In p perts -> near_z x (p, t) C h0) by (intros p Hp; apply HC; apply in_prod; assumption).
      revert F2. clear - HC' Hin Ea Ga Hh CB. revert vs. induction perts as [|p perts IH]; intros vs F2; inversion F2 as [|? v ? vs' (dd & E1 & G1) F2']; subst.
      - exists [], []. split; [constructor|]. split; [constructor|]. split; [constructor|]. intros z [].
      - destruct (IH ltac:(intros; apply HC'; right; assumption) vs' F2') as (qs & zs & K1 & K2 & K3 & K4).
        destruct (HC' p (or_introl eq_refl) Hin) as (a' & z & fc' & E2 & G2 & Cz & Sz & P0 & Hq). cbn [fst snd] in *.
        rewrite Ea in E2. injection E2 as <-. rewrite Ga in G2. injection G2 as <-.
        destruct (Hq h Hh) as (d' & b & E3 & G3 & A). rewrite E1 in E3. injection E3 as <-. rewrite G1 in G3. injection G3 as <-.
        exists ((fun i => (v i - a i) / h) :: qs), (z :: zs). split; [constructor; assumption|].
        split; [constructor; [intros i; exact (quot_back h (v i) (a i) ltac:(lra))|assumption]|]. split.
        + constructor; [|assumption]. intros i Hi. specialize (A i Hi). assert (C * h <= B * h) by (apply Rmult_le_compat_r; lra). lra.
        + intros y [<-|Hy]; [intros i Hi; specialize (Sz i Hi); lra|apply K4; exact Hy]. }
    destruct Q as (qs & zs & Fz & Fv & Fq & Sz). exists vs, fc, a, zs. split; [exact Gv|]. split; [exact Ea|]. split; [exact Ga|]. split; [exact Fz|].
    assert (Lz : length zs = length perts) by (symmetry; exact (f2len _ _ _ Fz)).
    assert (Lq : length qs = length perts) by (rewrite <- Lz; exact (f2len _ _ _ Fq)).
    assert (Nq : qs <> []) by (intros ->; cbn in Lq; lia).
    assert (Fvi : forall i, Forall2 (fun q v => v i = a i + h * q i) qs vs) by (intros i; clear - Fv; induction Fv; constructor; auto).
    assert (Fqi : forall i, D i -> Forall2 (fun q z => Rabs (q i - z i) <= B * h) qs zs) by (intros i Hi; clear - Fq Hi; induction Fq; constructor; auto).
    assert (Bh : 0 <= B * h) by (apply Rmult_le_pos; lra).
    assert (M1 : forall i, D i -> Rabs (emean vs i - (a i + h * emean zs i)) <= E * h ^ 2).
    { intros i Hi. rewrite (mean_affine a h qs vs i Nq (Fvi i)). replace (a i + h * emean qs i - (a i + h * emean zs i)) with (h * (emean qs i - emean zs i)) by ring.
      rewrite Rabs_mult, (Rabs_pos_eq h) by lra. pose proof (mean_close (B * h) qs zs i Nq (Fqi i Hi)) as X.
      apply Rle_trans with (h * (B * h)); [apply Rmult_le_compat_l; [lra|exact X]|]. replace (h * (B * h)) with (B * h ^ 2) by ring.
      apply Rmult_le_compat_r; [apply pow2_ge_0|]. unfold E. lra. }
    split; [exact M1|]. split.
    - intros i j Hi Hj. rewrite (cov_affine a h qs vs i j Nq (Fvi i) (Fvi j)). replace (h ^ 2 * ecov qs i j / h ^ 2) with (ecov qs i j) by (field; lra).
      pose proof (cov_close (B * h) B qs zs i j ltac:(lia) Bh B0 (Fqi i Hi) (Fqi j Hj) ltac:(intros z Hz; apply Sz; assumption) ltac:(intros z Hz; apply Sz; assumption)) as X.
      eapply Rle_trans; [exact X|]. unfold E. replace (2 * (8 * (B * h) * B + 4 * (B * h) ^ 2)) with ((2 * (8 * B * B + 4 * B ^ 2 * h)) * h) by ring.
      apply Rmult_le_compat_r; [lra|]. assert (B ^ 2 * h <= B ^ 2 * h0) by (apply Rmult_le_compat_l; [apply pow2_ge_0|lra]). lra.
    - intros Z i Hi. specialize (M1 i Hi). replace (emean zs i) with 0 in M1; [rewrite Rmult_0_r, Rplus_0_r in M1; exact M1|].
      assert (Np : perts <> []) by (intros ->; cbn in N; lia). pose proof (INR_pos perts Np) as P.
      destruct (carried_ex f df s w sv Hw Hs x t (fun _ => 0) Hin Hv) as (z & Hz).
      assert (T0 : forall k, D k -> total perts k = 0).
      { intros k Hk. specialize (Z k Hk). unfold emean in Z. apply (Rmult_eq_compat_r (INR (length perts))) in Z. unfold Rdiv in Z. rewrite Rmult_assoc, Rinv_l in Z by lra. lra. }
      pose proof (carried_total D f df TG s w sv Hw Hs x t perts zs Hin Hv Fz (fun _ => 0) z ltac:(intros k Hk; symmetry; apply T0; exact Hk) Hz i Hi) as X1.
      pose proof (carried_total D f df TG s w sv Hw Hs x t [] [] Hin Hv ltac:(constructor) (fun _ => 0) z ltac:(reflexivity) Hz i Hi) as X2.
      unfold emean. rewrite <- X1, X2. cbn. unfold Rdiv. ring.
  Qed.
End Main.

(** ** linear dynamics and make_M *)
Section Matrix.
  Definition rsum {A} (g : A -> R) (l : list A) : R := fold_right (fun x a => g x + a) 0 l.
  Lemma rsum_lsum {A} (g : A -> R) l : @lsum RF (map g l) = rsum g l.
  Proof. induction l as [|x l IH]; [reflexivity|]. cbn. rewrite IH. reflexivity. Qed.
  Lemma rsum_ext {A} (g h : A -> R) l : (forall x, g x = h x) -> rsum g l = rsum h l.
  Proof. intros H. induction l as [|x l IH]; [reflexivity|]. cbn. rewrite H. unfold rsum in IH. rewrite IH. reflexivity. Qed.
  Lemma rsum_plus {A} (g h : A -> R) l : rsum (fun x => g x + h x) l = rsum g l + rsum h l.
  Proof. induction l as [|x l IH]; [cbn; ring|]. unfold rsum in *. cbn [fold_right]. rewrite IH. ring. Qed.
  Lemma rsum_scal {A} c (g : A -> R) l : rsum (fun x => g x * c) l = rsum g l * c.
  Proof. induction l as [|x l IH]; [cbn; ring|]. unfold rsum in *. cbn [fold_right]. rewrite IH. ring. Qed.
  Lemma rsum_swap {A B} (g : A -> B -> R) l m : rsum (fun x => rsum (g x) m) l = rsum (fun y => rsum (fun x => g x y) l) m.
  Proof.
    induction l as [|x l IH].
    - induction m as [|y m IH]; [reflexivity|]. unfold rsum in *. cbn [fold_right] in *. rewrite <- IH. ring.
    - change (rsum (g x) m + rsum (fun x => rsum (g x) m) l = rsum (fun y => g x y + rsum (fun x => g x y) l) m). rewrite IH, rsum_plus. reflexivity.
  Qed.
  Lemma rsum_prod {A} (g h : A -> R) l : rsum g l * rsum h l = rsum (fun a => rsum (fun b => g a * h b) l) l.
  Proof.
    rewrite <- rsum_scal. apply rsum_ext. intros a. rewrite (Rmult_comm (g a)), <- rsum_scal. apply rsum_ext. intros b. ring.
  Qed.
  Context {I : Type}.
  Variables (ix : nat -> I) (m : nat -> I -> R) (ks : list nat).
  Definition image (u : I -> R) (j : I) : R := rsum (fun k => u (ix k) * m k j) ks.
  Lemma image_mean states j : states <> [] -> emean (map image states) j = rsum (fun k => emean states (ix k) * m k j) ks.
  Proof.
    intros N. pose proof (INR_pos states N) as P. unfold emean. rewrite map_length.
    assert (T : total (map image states) j = rsum (fun k => total states (ix k) * m k j) ks).
    { transitivity (rsum (fun u => image u j) states).
      - clear. induction states as [|u l IH]; [reflexivity|]. unfold total, rsum in *. cbn. rewrite IH. reflexivity.
      - unfold image. rewrite rsum_swap. apply rsum_ext. intros k. rewrite rsum_scal. reflexivity. }
    rewrite T. unfold Rdiv. rewrite <- rsum_scal. apply rsum_ext. intros k. ring.
  Qed.
  Lemma image_cov states i j : states <> [] -> ecov (map image states) i j = rsum (fun a => rsum (fun b => m a i * ecov states (ix a) (ix b) * m b j) ks) ks.
  Proof.
    intros N. unfold ecov. rewrite map_length.
    assert (T : fold_right (fun v a => (v i - emean (map image states) i) * (v j - emean (map image states) j) + a) 0 (map image states)
      = rsum (fun a => rsum (fun b => m a i * rsum (fun u => (u (ix a) - emean states (ix a)) * (u (ix b) - emean states (ix b))) states * m b j) ks) ks).
    { transitivity (rsum (fun u => (image u i - emean (map image states) i) * (image u j - emean (map image states) j)) states).
      - generalize (emean (map image states) i) (emean (map image states) j). intros x y. clear. induction states as [|u l IH]; [reflexivity|]. unfold rsum in *. cbn. rewrite IH. reflexivity.
      - assert (A : forall u k, image u k - emean (map image states) k = rsum (fun a => (u (ix a) - emean states (ix a)) * m a k) ks).
        { intros u k. rewrite image_mean by exact N. unfold image. apply Rplus_eq_reg_r with (rsum (fun a => emean states (ix a) * m a k) ks). rewrite <- rsum_plus.
          match goal with |- ?x - ?y + ?y = _ => replace (x - y + y) with x by ring end. apply rsum_ext. intros a. ring. }
        rewrite (rsum_ext _ (fun u => rsum (fun a => rsum (fun b => (u (ix a) - emean states (ix a)) * m a i * ((u (ix b) - emean states (ix b)) * m b j)) ks) ks)).
        2: { intros u. rewrite !A, rsum_prod. reflexivity. }
        rewrite rsum_swap. apply rsum_ext. intros a. rewrite rsum_swap. apply rsum_ext. intros b.
        rewrite (Rmult_comm (m a i)), <- rsum_scal, <- rsum_scal. apply rsum_ext. intros u. ring. }
    rewrite T. unfold Rdiv. rewrite <- rsum_scal. apply rsum_ext. intros a. rewrite <- rsum_scal. apply rsum_ext. intros b. unfold rsum. ring.
  Qed.
End Matrix.
