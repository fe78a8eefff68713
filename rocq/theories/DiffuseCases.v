(** Concrete generated classes, solutions, and the arrays for the examples of C115 and C116. *)
From Coq Require Import List Arith ZArith Bool Reals String Lia Lra Psatz Permutation FunctionalExtensionality.
From Verif Require Import PyBase PyBaseFacts Scalars FieldFacts SymModel FDExprModel FDExprSpec FDReal GridModel GridSpec GridMore ForecastModel ForecastSpec ConsistSpec ConsistMain
  SchemesModel SchemesSpec LineModel LineConv LineCases EnergySpec EnergyProofs AdvectModel AdvectSpec AdvectGrid AdvectConv AdvectCases WindSpec WindConv WindMain StatSmooth
  DiffuseModel DiffuseSpec DiffuseTrend DiffuseGrid DiffuseMain.
Import ListNotations.
Open Scope R_scope.

(** ** classes *)
Definition kappa_attr (K : kappa (list nat -> R)) (name : string) : res (list nat -> R) :=
  if String.eqb name "kappa_11" then Ok (k11 K) else if String.eqb name "kappa_12" then Ok (k12 K) else if String.eqb name "kappa_22" then Ok (k22 K) else Err KeyError.
Lemma some_class (l0 l1 : R) (n0 n1 : nat) (K : kappa (list nat -> R)) : 0 < l0 -> 0 < l1 -> (0 < n0)%nat -> (0 < n1)%nat ->
  exists g d, init_index plane [n0; n1] = Ok d /\
    diffuse_class [l0; l1] [n0; n1] K (fun l => l) (fun l => l) g (fun _ _ _ => d) (kappa_attr K).
Proof.
  intros P0 P1 Q0 Q1.
  destruct (@grid_init_ok RF plane (Some [n0; n1]) (Some [l0; l1])) as (g & Hg & _); try reflexivity.
  { repeat constructor; cbn; intuition discriminate. }
  { intros m [<-|[<-|[]]]; lia. }
  exists g. eexists. split; [reflexivity|]. split; auto; try (intros; apply Permutation_refl).
  - split; [reflexivity|]. intros L [<-|[<-|[]]]; lra.
  - intros t v h. exists []. eexists. split; reflexivity.
Qed.

(** ** solutions *)
Lemma dexplin A b x : derivable_pt_lim (fun s => A * exp (b * s)) x (A * (b * exp (b * x))).
Proof.
  eapply dl_eq; [|apply (dmult (fun _ => A) (fun s => exp (b * s))); [apply dconst|]].
  2: { apply (derivable_pt_lim_comp (fun s => b * s) exp); [|apply derivable_pt_lim_exp].
       apply (dmult (fun _ => b) (fun s => s)); [apply dconst|apply derivable_pt_lim_id]. }
  cbv beta. ring.
Qed.
Lemma exp_small b t : b <= 0 -> 0 <= t -> Rabs (exp (b * t)) <= 1.
Proof. intros Hb Ht. rewrite Rabs_pos_eq by (left; apply exp_pos). rewrite <- exp_0. destruct (Req_dec (b * t) 0) as [->|N]; [lra|]. left. apply exp_increasing. nra. Qed.
(** the tensor (1, 1/2, 1) damps sin (x + y) at the rate 3 *)
Definition slanted : kappa R := tensor2 1 (1 / 2) 1.
Definition damped (m : nat) (t : R) (a : multi) (p : point) : R :=
  (-3) ^ m * exp (-3 * t) * sin (p O + p 1%nat + INR (a O + a 1%nat) * (PI / 2)).
Lemma slanted_dissipates : dissipates slanted.
Proof. unfold dissipates, slanted. cbn. lra. Qed.
Lemma damped_solution : evolution 2 [2 * PI; 2 * PI] (diffusion_with slanted) 0 1 damped.
Proof.
  split.
  - intros m t _ a i p Hi. unfold damped. destruct i as [|[|i]]; [| |lia]; unfold inc, at_coord; cbn -[sin exp INR PI pow Nat.add].
    + change (S (a O) + a 1%nat)%nat with (S (a O + a 1%nat)). rewrite quarter.
      eapply derivable_pt_lim_ext; [|eapply dl_eq; [|apply (dsinlin ((-3) ^ m * exp (-3 * t)) 1 (p 1%nat + INR (a O + a 1%nat) * (PI / 2)))]].
      * intros s. cbv beta. do 2 f_equal. ring.
      * cbv beta. rewrite !Rmult_1_l. do 2 f_equal. ring.
    + replace (a O + S (a 1%nat))%nat with (S (a O + a 1%nat)) by lia. rewrite quarter.
      eapply derivable_pt_lim_ext; [|eapply dl_eq; [|apply (dsinlin ((-3) ^ m * exp (-3 * t)) 1 (p O + INR (a O + a 1%nat) * (PI / 2)))]].
      * intros s. cbv beta. do 2 f_equal. ring.
      * cbv beta. rewrite !Rmult_1_l. do 2 f_equal. ring.
  - intros m a t p _. unfold damped. set (S0 := sin _).
    eapply derivable_pt_lim_ext; [|eapply dl_eq; [|apply (dexplin ((-3) ^ m * S0) (-3))]].
    + intros s. cbv beta. ring.
    + cbn [pow]. ring.
  - intros t p _. unfold diffusion_with, damped, slanted, inc, none. cbn -[sin exp INR PI].
    assert (E : sin (p O + p 1%nat + INR 2 * (PI / 2)) = - sin (p O + p 1%nat + INR 0 * (PI / 2))).
    { rewrite !quarter. replace (p O + p 1%nat + INR 0 * (PI / 2)) with (p O + p 1%nat) by (cbn; ring).
      change (cos (p O + p 1%nat + INR 1 * (PI / 2))) with (cos (p O + p 1%nat + 1 * (PI / 2))). rewrite Rmult_1_l, (Rplus_comm _ (PI / 2)), (sin_cos (p O + p 1%nat)). ring. }
    rewrite E. field.
  - intros t _ i p L H. assert (S : forall z, sin (z + 2 * PI) = sin z) by (intros z; rewrite <- (sin_period z 1); f_equal; cbn; ring).
    destruct i as [|[|i]]; cbn in H; [| |destruct i; discriminate]; injection H as <-; unfold damped, at_coord, none; cbn -[INR sin exp PI].
    + replace (p O + 2 * PI + p 1%nat + INR 0 * (PI / 2)) with (p O + p 1%nat + INR 0 * (PI / 2) + 2 * PI) by ring. rewrite S. reflexivity.
    + replace (p O + (p 1%nat + 2 * PI) + INR 0 * (PI / 2)) with (p O + p 1%nat + INR 0 * (PI / 2) + 2 * PI) by ring. rewrite S. reflexivity.
  - intros m a. exists (3 ^ m). intros t p Ht. unfold damped. rewrite !Rabs_mult, <- RPow_abs. rewrite (Rabs_left (-3)) by lra. replace (- -3) with 3 by ring.
    pose proof (exp_small (-3) t ltac:(lra) ltac:(lra)) as E. pose proof (Rabs_pos (exp (-3 * t))) as Pe. set (S0 := sin _). assert (HS : Rabs S0 <= 1) by (apply Rabs_le, SIN_bound). pose proof (Rabs_pos S0).
    assert (0 < 3 ^ m) by (apply pow_lt; lra). rewrite Rmult_assoc. rewrite <- (Rmult_1_r (3 ^ m)) at 2. apply Rmult_le_compat_l; [lra|]. nra.
Qed.

(** ** the tensor ((1 + cos x / 8) / (1 + cos x / 2), 0, 1) damps (cos x + cos (2 x) / 8) sin y at the rate 2 *)
Definition bump (p : point) : R := 1 / 4 + 3 / 4 * / (1 + cos (p O) / 2).
Lemma bump_low p : 1 / 2 <= 1 + cos (p O) / 2.
Proof. pose proof (COS_bound (p O)). lra. Qed.
Lemma cosine_family : family 2 (-1) 2 (fun m t a p => match m, a 1%nat with O, O => cos (p O + INR (a O) * (PI / 2)) | _, _ => 0 end).
Proof.
  assert (Q : forall k z, derivable_pt_lim (fun s => cos (s + INR k * (PI / 2))) z (cos (z + INR (S k) * (PI / 2)))).
  { intros k z. rewrite <- !quarter.
    eapply derivable_pt_lim_ext; [|eapply dl_eq; [|apply (dsinlin 1 1 (INR (S k) * (PI / 2)))]].
    - intros s. cbv beta. rewrite Rmult_1_l, Rmult_1_l. apply quarter.
    - rewrite !Rmult_1_l. symmetry. apply quarter. }
  split.
  - intros m t _ a i p Hi. destruct m as [|m]; [|apply derivable_pt_lim_const]. destruct i as [|[|i]]; [| |lia]; unfold inc, at_coord; cbn -[cos INR PI].
    + destruct (a 1%nat); [apply Q|apply derivable_pt_lim_const].
    + destruct (a 1%nat); apply derivable_pt_lim_const.
  - intros m a t p _. destruct m, (a 1%nat); apply derivable_pt_lim_const.
  - intros m a. exists 1. intros t p _. destruct m, (a 1%nat); rewrite ?Rabs_R0; try lra. apply Rabs_le, COS_bound.
Qed.
Lemma bump_smooth : smoothf 2 (-1) 2 (fun _ p => bump p).
Proof.
  assert (C : smoothf 2 (-1) 2 (fun _ p => cos (p O))).
  { eapply smooth_ext; [|exact (smooth_of_family 2 (-1) 2 _ O none cosine_family)]. intros t p _. cbn -[cos PI]. f_equal. ring. }
  assert (D : smoothf 2 (-1) 2 (fun _ p => 1 + cos (p O) / 2)).
  { apply (smooth_plus 2 (-1) 2 (fun _ _ => 1) (fun _ p => cos (p O) / 2)); [apply smooth_const|].
    eapply smooth_ext; [|exact (smooth_scale 2 (-1) 2 (/ 2) _ C)]. intros t p _. unfold Rdiv. ring. }
  pose proof (smooth_isqrt 2 (-1) 2 (fun _ p => 1 + cos (p O) / 2) (1 / 2) ltac:(lra) D (fun _ p _ => bump_low p)) as S.
  eapply smooth_ext; [|exact (smooth_plus 2 (-1) 2 _ _ (smooth_const 2 (-1) 2 (1 / 4)) (smooth_scale 2 (-1) 2 (3 / 4) _ (smooth_mult 2 (-1) 2 _ _ S S)))].
  intros t p _. unfold bump. pose proof (bump_low p). rewrite <- Rinv_mult, sqrt_sqrt by lra. reflexivity.
Qed.
Definition steady_part (c : R) (a : multi) (p : point) : R := match a O, a 1%nat with O, O => c | _, _ => 0 end.
Lemma steady_smooth lengths c : smooth_function lengths (steady_part c).
Proof.
  split; [|split].
  - intros a i p Hi. unfold steady_part, inc. destruct i as [|[|i]]; [| |lia]; cbn; destruct (a O), (a 1%nat); apply derivable_pt_lim_const.
  - intros i p L _. reflexivity.
  - intros a. exists (Rabs c). intros p. unfold steady_part. destruct (a O), (a 1%nat); rewrite ?Rabs_R0; auto using Rabs_pos; lra.
Qed.
Definition ripple (m : nat) (t : R) (a : multi) (p : point) : R :=
  (-2) ^ m * exp (-2 * t) * (sin (p O + INR (S (a O)) * (PI / 2)) + / 8 * 2 ^ a O * sin (2 * p O + INR (S (a O)) * (PI / 2))) * sin (p 1%nat + INR (a 1%nat) * (PI / 2)).
Lemma hill : exists K, smooth_tensor [2 * PI; 2 * PI] K /\ (forall p, k11 K none p = bump p /\ k12 K none p = 0 /\ k22 K none p = 1) /\
  evolution 2 [2 * PI; 2 * PI] (diffusion_of K) 0 1 ripple.
Proof.
  destruct bump_smooth as (v & [F1 _ F3] & V). pose proof PI_RGT_0 as PP.
  assert (On : -1 < 0 < 2) by lra.
  exists (tensor2 (v O 0) (steady_part 0) (steady_part 1)). split; [|split].
  - split; [|split; apply steady_smooth]. split; [exact (F1 O 0 On)|split].
    + intros i p L H. cbn [k11]. rewrite !V by auto. unfold bump. destruct i as [|[|i]]; cbn in H; [| |destruct i; discriminate]; injection H as <-; unfold at_coord; cbn -[cos PI].
      * replace (cos (p O + 2 * PI)) with (cos (p O)); [reflexivity|]. rewrite <- (cos_period (p O) 1). f_equal. cbn. ring.
      * reflexivity.
    + intros a. destruct (F3 O a) as (B & HB). exists B. intros p. apply HB. exact On.
  - intros p. cbn [k11 k12 k22]. rewrite V by auto. repeat split.
  - split.
    + intros m t _ a i p Hi. unfold ripple. destruct i as [|[|i]]; [| |lia]; unfold inc, at_coord; cbn -[sin exp INR PI pow Nat.add].
      * set (A := (-2) ^ m * exp (-2 * t)). set (D := sin (p 1%nat + INR (a 1%nat) * (PI / 2))). rewrite (quarter (S (a O)) (p O)), (quarter (S (a O)) (2 * p O)).
        eapply derivable_pt_lim_ext; [|eapply dl_eq; [|apply derivable_pt_lim_plus; [apply (dsinlin (A * D) 1 (INR (S (a O)) * (PI / 2)))|apply (dsinlin (A * D * (/ 8 * 2 ^ a O)) 2 (INR (S (a O)) * (PI / 2)))]]].
        -- intros s. unfold plus_fct. rewrite Rmult_1_l. ring.
        -- rewrite !Rmult_1_l. cbn [pow]. ring.
      * set (A := (-2) ^ m * exp (-2 * t) * _). rewrite (quarter (a 1%nat) (p 1%nat)).
        eapply derivable_pt_lim_ext; [|eapply dl_eq; [|apply (dsinlin A 1 (INR (a 1%nat) * (PI / 2)))]].
        -- intros s. cbv beta. rewrite Rmult_1_l. reflexivity.
        -- rewrite !Rmult_1_l. reflexivity.
    + intros m a t p _. unfold ripple. set (S0 := (_ + _) : R). set (S1 := sin (p 1%nat + _)).
      eapply derivable_pt_lim_ext; [|eapply dl_eq; [|apply (dexplin ((-2) ^ m * S0 * S1) (-2))]].
      * intros s. cbv beta. ring.
      * cbn [pow]. ring.
    + intros t p _.
      assert (C0 : forall z, sin (z + INR 0 * (PI / 2)) = sin z) by (intros z; f_equal; cbn; ring).
      assert (C1 : forall z, sin (z + INR 1 * (PI / 2)) = cos z) by (intros z; rewrite quarter; f_equal; cbn; ring).
      assert (C2 : forall z, sin (z + INR 2 * (PI / 2)) = - sin z).
      { intros z. rewrite quarter. change (INR 1) with 1. rewrite Rmult_1_l, (Rplus_comm _ (PI / 2)), (sin_cos z). ring. }
      assert (C3 : forall z, sin (z + INR 3 * (PI / 2)) = - cos z).
      { intros z. rewrite quarter. replace (z + INR 2 * (PI / 2)) with (z + PI) by (cbn; field). apply neg_cos. }
      (* the flux *)
      assert (Hk : v O 0 (inc 0 none) p * (- (sin (p O) + / 4 * sin (2 * p O))) + bump p * (- (cos (p O) + / 2 * cos (2 * p O))) = - (cos (p O) + / 8 * cos (2 * p O))).
      { pose proof (F1 O 0 On none 0%nat p ltac:(lia)) as D1.
        assert (D2 : derivable_pt_lim (fun s => - (sin s + / 4 * sin (2 * s))) (p O) (- (cos (p O) + / 2 * cos (2 * p O)))).
        { eapply derivable_pt_lim_ext; [|eapply dl_eq; [|apply derivable_pt_lim_plus; [apply (dsinlin (-1) 1 0)|apply (dsinlin (- / 4) 2 0)]]].
          - intros s. unfold plus_fct. rewrite !Rplus_0_r, Rmult_1_l. ring.
          - rewrite !Rplus_0_r, !Rmult_1_l. field. }
        pose proof (derivable_pt_lim_mult _ _ _ _ _ D1 D2) as D3. cbv beta in D3. rewrite at_self in D3.
        assert (D4 : derivable_pt_lim (mult_fct (fun s => v O 0 none (@at_coord RF p 0 s)) (fun s => - (sin s + / 4 * sin (2 * s)))) (p O) (- (cos (p O) + / 8 * cos (2 * p O)))).
        { eapply derivable_pt_lim_ext; [|eapply dl_eq; [|apply derivable_pt_lim_plus; [apply (dsinlin (-1) 1 0)|apply (dsinlin (- / 16) 2 0)]]].
          - intros s. unfold plus_fct, mult_fct. rewrite V by auto. unfold bump, at_coord. cbn -[cos sin]. rewrite !Rplus_0_r, Rmult_1_l, sin_2a.
            pose proof (COS_bound s). field. lra.
          - rewrite !Rplus_0_r, !Rmult_1_l. field. }
        pose proof (uniqueness_limite _ _ _ _ D3 D4) as U. rewrite V in U by auto. rewrite <- U. ring. }
      unfold diffusion_of, ripple, steady_part, inc, none. cbn [k11 k12 k22]. rewrite V by auto. cbn -[sin cos exp INR PI pow bump Rdiv].
      cbn -[sin cos exp INR PI bump] in Hk. cbn [pow]. rewrite ?C0, ?C1, ?C2, ?C3. set (X := v O 0 _ p) in *. clearbody X.
      set (sx := sin (p O)) in *. set (s2 := sin (2 * p O)) in *. set (cx := cos (p O)) in *. set (c2 := cos (2 * p O)) in *. set (E := exp (-2 * t)). set (sy := sin (p 1%nat)).
      match goal with |- ?l = ?r => replace r with (E * sy * (X * (- (sx + / 4 * s2)) + bump p * (- (cx + / 2 * c2))) - E * sy * (cx + / 8 * c2)) by field end.
      rewrite Hk. field.
    + intros t _ i p L H. assert (S : forall z, sin (z + 2 * PI) = sin z) by (intros z; rewrite <- (sin_period z 1); f_equal; cbn; ring).
      destruct i as [|[|i]]; cbn in H; [| |destruct i; discriminate]; injection H as <-; unfold ripple, at_coord, none; cbn -[INR sin exp PI].
      * replace (p O + 2 * PI + INR 1 * (PI / 2)) with (p O + INR 1 * (PI / 2) + 2 * PI) by ring.
        replace (2 * (p O + 2 * PI) + INR 1 * (PI / 2)) with (2 * p O + INR 1 * (PI / 2) + 2 * PI + 2 * PI) by ring. rewrite !S. reflexivity.
      * replace (p 1%nat + 2 * PI + INR 0 * (PI / 2)) with (p 1%nat + INR 0 * (PI / 2) + 2 * PI) by ring. rewrite S. reflexivity.
    + intros m a. exists (2 ^ m * (1 + / 8 * 2 ^ a O)). intros t p Ht. unfold ripple. rewrite !Rabs_mult, <- RPow_abs. rewrite (Rabs_left (-2)) by lra. replace (- -2) with 2 by ring.
      pose proof (exp_small (-2) t ltac:(lra) ltac:(lra)) as E. pose proof (Rabs_pos (exp (-2 * t))) as Pe.
      assert (Sb : forall z, Rabs (sin z) <= 1) by (intros; apply Rabs_le, SIN_bound).
      assert (P0 : 0 < 2 ^ a O) by (apply pow_lt; lra). assert (P1 : 0 < 2 ^ m) by (apply pow_lt; lra).
      set (Q := Rabs (_ + _)). assert (HQ : Q <= 1 + / 8 * 2 ^ a O).
      { unfold Q. eapply Rle_trans; [apply Rabs_triang|]. apply Rplus_le_compat; [apply Sb|]. rewrite Rabs_mult, (Rabs_pos_eq (/ 8 * _)) by lra. rewrite <- (Rmult_1_r (/ 8 * 2 ^ a O)) at 2. apply Rmult_le_compat_l; [lra|apply Sb]. }
      assert (PQ : 0 <= Q) by apply Rabs_pos. pose proof (Sb (p 1%nat + INR (a 1%nat) * (PI / 2))) as H1. pose proof (Rabs_pos (sin (p 1%nat + INR (a 1%nat) * (PI / 2)))) as H2.
      set (Y := Rabs (sin (p 1%nat + _))) in *. set (X := Rabs (exp _)) in *.
      assert (X1 : X * Q <= Q) by nra. assert (X2 : X * Q * Y <= Q) by (assert (0 <= X * Q) by (apply Rmult_le_pos; auto); nra).
      replace (2 ^ m * X * Q * Y) with (2 ^ m * (X * Q * Y)) by ring. apply Rmult_le_compat_l; lra.
Qed.

(** ** arrays *)
(** components along the first axis of 4 x 1 points *)
Definition uneven : kappa (list nat -> R) := tensor2 (fun js => if Nat.eqb (nth 0 js O) 0 then 2 else 1) (fun _ => 0) (fun _ => 1).
Definition spike : list nat -> R := fun i => if Nat.eqb (nth 1 i O) 0 then 1 else 0.
Lemma four_points (P : list nat -> Prop) : P [0; 0]%nat -> P [1; 0]%nat -> P [2; 0]%nat -> P [3; 0]%nat -> forall js, in_range [4%nat; 1%nat] js -> P js.
Proof.
  intros P0 P1 P2 P3 js H. inversion H as [|? i ? ? Hi Hj]; subst. inversion Hj as [|? j ? ? Hk Hl]; subst. inversion Hl; subst.
  assert (j = O) as -> by lia. destruct i as [|[|[|[|i]]]]; auto. lia.
Qed.
Lemma uneven_resolved : resolved [4%nat; 1%nat] uneven.
Proof.
  unfold resolved. apply four_points; unfold next, prev; cbn; repeat split; apply Rabs_le; lra.
Qed.
Lemma uneven_limit js : in_range [4%nat; 1%nat] js ->
  1 / 10 * (2 * k11 uneven js / step_of [4; 1] [4%nat; 1%nat] 0 ^ 2 + 2 * k22 uneven js / step_of [4; 1] [4%nat; 1%nat] 1 ^ 2) <= 1.
Proof.
  revert js. assert (E0 : step_of [4; 1] [4%nat; 1%nat] 0 = 1) by (unfold step_of; cbn; field). assert (E1 : step_of [4; 1] [4%nat; 1%nat] 1 = 1) by (unfold step_of; cbn; field).
  rewrite E0, E1. apply four_points; cbn; lra.
Qed.
(** one step of a forecast *)
Lemma one_step lengths shape K enum x ord rpow g caches attr s (dt : R) state : diffuse_class lengths shape K enum ord g caches attr -> 0 <> dt ->
  exists traj r, forecast Req_EM_T Rminus (@onestep_fun RF (list nat) s) (generated_trend enum x ord rpow plane g caches attr diffusion_in_2D) [0; dt] state SNone = Ok traj /\
    dget Req_EM_T dt traj = Some r /\ view shape r = @exp_taylor RF (list nat) (spread lengths shape (coefs_of lengths shape K)) dt (onestep_order s) (view shape state).
Proof.
  intros DC Nd.
  destruct (d_power lengths shape K enum x ord rpow g caches attr DC s 0 dt 1 state) as (traj & r & E & G & Hr); auto.
  assert (T : EnergySpec.times 0 dt 1 = [0; dt]) by (unfold EnergySpec.times; cbn; f_equal; [ring|f_equal; ring]).
  exists traj, r. rewrite <- T. split; [exact E|]. replace (0 + INR 1 * dt) with dt in G by (cbn; ring). split; [exact G|exact Hr].
Qed.
Lemma uneven_loses : exists g d traj r, init_index plane [4%nat; 1%nat] = Ok d /\
  diffuse_class [4; 1] [4%nat; 1%nat] uneven (fun l => l) (fun l => l) g (fun _ _ _ => d) (kappa_attr uneven) /\
  forecast Req_EM_T Rminus (@euler RF (list nat))
    (generated_trend (fun l => l) (fun _ => 0) (fun l => l) (fun a _ => a) plane g (fun _ _ _ => d) (kappa_attr uneven) diffusion_in_2D) [0; 1 / 10] spike SNone = Ok traj /\
  dget Req_EM_T (1 / 10) traj = Some r /\ mass [4%nat; 1%nat] spike = 1 /\ mass [4%nat; 1%nat] r = 17 / 20.
Proof.
  destruct (some_class 4 1 4 1 uneven ltac:(lra) ltac:(lra) ltac:(lia) ltac:(lia)) as (g & d & Hd & DC). exists g, d.
  destruct (one_step [4; 1] [4%nat; 1%nat] uneven (fun l => l) (fun _ => 0) (fun l => l) (fun a _ => a) g (fun _ _ _ => d) (kappa_attr uneven) SEuler (1 / 10) spike DC ltac:(lra)) as (traj & r & E & G & V).
  exists traj, r. repeat (split; [assumption|]). split; [unfold mass, field, spike; cbn; ring|].
  rewrite mass_view, V. cbn [onestep_order]. rewrite (DiffuseGauge.taylor_1 _ _).
  unfold DiffuseGauge.explicit. set (f := spread _ _ _).
  transitivity (GS [4%nat; 1%nat] (view [4%nat; 1%nat] spike) + 1 / 10 * GS [4%nat; 1%nat] (f (view [4%nat; 1%nat] spike))).
  { rewrite <- gs_scale, <- gs_add. apply gs_ext. intros js _. reflexivity. }
  unfold f. rewrite (spread_budget [4; 1] [4%nat; 1%nat] uneven _ _ _ _ _ DC).
  rewrite <- (mass_view [4%nat; 1%nat] spike).
  assert (Ex : GS [4%nat; 1%nat] (fun js => excess [4; 1] [4%nat; 1%nat] uneven js * view [4%nat; 1%nat] spike js) = - (3 / 2)).
  { unfold GS, view, cut, excess, curve, slope, step_of, uneven, spike, next, prev, field. cbn. field. }
  rewrite Ex. unfold mass, field, spike. cbn. field.
Qed.

(** a positive tensor that is not diagonal, and a field in a point of 3 x 3 *)
Definition dot_field : list nat -> R := fun i => if (Nat.eqb (nth 1 i O) 0 && Nat.eqb (nth 2 i O) 0)%bool then 1 else 0.
Lemma slanted_undershoot (dt : R) : 0 < dt -> exists g d traj r, init_index plane [3%nat; 3%nat] = Ok d /\
  diffuse_class [3; 3] [3%nat; 3%nat] (uniform slanted) (fun l => l) (fun l => l) g (fun _ _ _ => d) (kappa_attr (uniform slanted)) /\
  forecast Req_EM_T Rminus (@euler RF (list nat))
    (generated_trend (fun l => l) (fun _ => 0) (fun l => l) (fun a _ => a) plane g (fun _ _ _ => d) (kappa_attr (uniform slanted)) diffusion_in_2D) [0; dt] dot_field SNone = Ok traj /\
  dget Req_EM_T dt traj = Some r /\ field r [1%nat; 2%nat] = - (dt / 4).
Proof.
  intros Hdt. destruct (some_class 3 3 3 3 (uniform slanted) ltac:(lra) ltac:(lra) ltac:(lia) ltac:(lia)) as (g & d & Hd & DC). exists g, d.
  destruct (one_step [3; 3] [3%nat; 3%nat] (uniform slanted) (fun l => l) (fun _ => 0) (fun l => l) (fun a _ => a) g (fun _ _ _ => d) (kappa_attr (uniform slanted)) SEuler dt dot_field DC ltac:(lra)) as (traj & r & E & G & V).
  exists traj, r. repeat (split; [assumption|]).
  assert (I : in_range [3%nat; 3%nat] [1%nat; 2%nat]) by (repeat (constructor; try lia)).
  replace (field r [1%nat; 2%nat]) with (view [3%nat; 3%nat] r [1%nat; 2%nat]) by (unfold view; rewrite cut_in by exact I; reflexivity).
  rewrite V. cbn [onestep_order]. rewrite (DiffuseGauge.taylor_1 _ _). unfold DiffuseGauge.explicit, vadd, vscale. cbn [fadd fmul RF F].
  unfold spread. rewrite cut_in by exact I.
  unfold value5, coefs_of, view, cut, curve, slope, step_of, uniform, kmap, slanted, dot_field, next, prev, field. cbn. field.
Qed.
