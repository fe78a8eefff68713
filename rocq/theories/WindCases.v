(** Cells of air in the plane and a wave carried along, for the examples of C113. *)
From Coq Require Import List Arith ZArith Bool Reals String Lia Lra Psatz FunctionalExtensionality.
From Verif Require Import PyBase PyBaseFacts Scalars FieldFacts FDExprSpec FDReal ConsistSpec ConsistMain LineCases AdvectModel AdvectSpec AdvectCases WindSpec.
Import ListNotations.
Open Scope R_scope.

(** the wind (- sin x cos y, cos x sin y), of stream function sin x sin y *)
Definition cells (k : nat) (p : point) : R :=
  match k with O => - (sin (p O) * cos (p 1%nat)) | 1%nat => cos (p O) * sin (p 1%nat) | _ => 0 end.
Lemma small_product a b : -1 <= a <= 1 -> -1 <= b <= 1 -> Rabs (a * b) <= 1.
Proof. intros Ha Hb. rewrite Rabs_mult, <- (Rmult_1_l 1). apply Rmult_le_compat; try apply Rabs_pos; apply Rabs_le; lra. Qed.
Lemma cells_variable : variable_winds 2 [2 * PI; 2 * PI] cells (fun _ => 1) (fun _ => 1).
Proof.
  split.
  - intros k Hk i p L HL.
    assert (S : forall s, sin (s + 2 * PI) = sin s) by (intros s; rewrite <- (sin_period s 1); f_equal; cbn; ring).
    assert (C : forall s, cos (s + 2 * PI) = cos s) by (intros s; rewrite <- (cos_period s 1); f_equal; cbn; ring).
    destruct k as [|[|k]]; [| |lia]; (destruct i as [|[|i]]; cbn in HL; [| |destruct i; discriminate]); injection HL as <-; unfold cells, at_coord; cbn -[sin cos PI]; rewrite ?S, ?C; reflexivity.
  - intros k p Hk. pose proof (SIN_bound (p O)). pose proof (COS_bound (p O)). pose proof (SIN_bound (p 1%nat)). pose proof (COS_bound (p 1%nat)).
    destruct k as [|[|k]]; [| |lia]; unfold cells; rewrite ?Rabs_Ropp; apply small_product; auto.
  - exists (fun k p => match k with O => - (cos (p O) * cos (p 1%nat)) | _ => cos (p O) * cos (p 1%nat) end). intros k p Hk.
    pose proof (COS_bound (p O)). pose proof (COS_bound (p 1%nat)). split.
    + destruct k as [|[|k]]; [| |lia]; unfold cells, at_coord; cbn -[sin cos].
      * apply (derivable_pt_lim_opp (fun s => sin s * cos (p 1%nat))).
        eapply dl_eq; [|apply (dmult sin (fun _ => cos (p 1%nat))); [apply derivable_pt_lim_sin|apply dconst]]. cbv beta. ring.
      * eapply dl_eq; [|apply (dmult (fun _ => cos (p O)) sin); [apply dconst|apply derivable_pt_lim_sin]]. cbv beta. ring.
    + destruct k as [|k]; rewrite ?Rabs_Ropp; apply small_product; auto.
Qed.
(** the stream function is carried along itself *)
Definition cellular (m : nat) (t : R) (a : multi) (p : point) : R :=
  match m with O => sin (p O + INR (a O) * (PI / 2)) * sin (p 1%nat + INR (a 1%nat) * (PI / 2)) | _ => 0 end.
Lemma cellular_solution t0 t1 : evolution 2 [2 * PI; 2 * PI] (carried_by 2 cells) t0 t1 cellular.
Proof.
  split.
  - intros m t _ a i p Hi. destruct m as [|m]; [|apply derivable_pt_lim_const]. unfold cellular.
    destruct i as [|[|i]]; [| |lia]; unfold inc, at_coord; cbn [Nat.eq_dec nat_rec nat_rect]; rewrite quarter.
    + eapply derivable_pt_lim_ext; [|eapply dl_eq; [|apply (dsinlin (sin (p 1%nat + INR (a 1%nat) * (PI / 2))) 1 (INR (a O) * (PI / 2)))]].
      * intros s. cbn -[sin INR]. rewrite Rmult_1_l. ring.
      * rewrite !Rmult_1_l. cbn -[sin cos INR]. ring.
    + eapply derivable_pt_lim_ext; [|eapply dl_eq; [|apply (dsinlin (sin (p O + INR (a O) * (PI / 2))) 1 (INR (a 1%nat) * (PI / 2)))]].
      * intros s. cbn -[sin INR]. rewrite Rmult_1_l. reflexivity.
      * rewrite !Rmult_1_l. reflexivity.
  - intros m a t p _. destruct m as [|m]; apply derivable_pt_lim_const.
  - intros t p _. unfold carried_by, cellular, inc, none. cbn [seq map fold_right Nat.eq_dec nat_rec nat_rect]. cbn -[sin cos INR PI].
    assert (E0 : forall z, sin (z + INR 0 * (PI / 2)) = sin z) by (intros z; f_equal; cbn; ring).
    assert (E1 : forall z, sin (z + INR 1 * (PI / 2)) = cos z) by (intros z; rewrite quarter; f_equal; cbn; ring).
    rewrite !E0, !E1. ring.
  - intros t _ i p L H. assert (S : forall z, sin (z + 2 * PI) = sin z) by (intros z; rewrite <- (sin_period z 1); f_equal; cbn; ring).
    destruct i as [|[|i]]; cbn in H; [| |destruct i; discriminate]; injection H as <-; unfold cellular, at_coord, none; cbn -[INR sin PI].
    + replace (p O + 2 * PI + INR 0 * (PI / 2)) with (p O + INR 0 * (PI / 2) + 2 * PI) by ring. rewrite S. reflexivity.
    + replace (p 1%nat + 2 * PI + INR 0 * (PI / 2)) with (p 1%nat + INR 0 * (PI / 2) + 2 * PI) by ring. rewrite S. reflexivity.
  - intros m a. exists 1. intros t p _. destruct m as [|m]; cbn; [|rewrite Rabs_R0; lra]. apply small_product; apply SIN_bound.
Qed.

(** the wind (1, sin y) carries sin (x - t) *)
Definition gusts (k : nat) (p : point) : R := match k with O => 1 | 1%nat => sin (p 1%nat) | _ => 0 end.
Definition moving (m : nat) (t : R) (a : multi) (p : point) : R :=
  match a 1%nat with O => (-1) ^ m * sin (p O - t + INR (a O + m) * (PI / 2)) | _ => 0 end.
Lemma gusts_variable : variable_winds 2 [2 * PI; 2 * PI] gusts (fun _ => 1) (fun _ => 1).
Proof.
  split.
  - intros k Hk i p L HL. assert (S : forall s, sin (s + 2 * PI) = sin s) by (intros s; rewrite <- (sin_period s 1); f_equal; cbn; ring).
    destruct k as [|[|k]]; [reflexivity| |lia]. destruct i as [|[|i]]; cbn in HL; [reflexivity| |destruct i; discriminate]. injection HL as <-.
    unfold gusts, at_coord. cbn -[sin PI]. apply S.
  - intros k p Hk. destruct k as [|[|k]]; [| |lia]; cbn; [rewrite Rabs_R1; lra|apply Rabs_le, SIN_bound].
  - exists (fun k p => match k with O => 0 | _ => cos (p 1%nat) end). intros k p Hk. destruct k as [|[|k]]; [| |lia]; unfold gusts, at_coord; cbn -[sin cos].
    + split; [apply derivable_pt_lim_const|rewrite Rabs_R0; lra].
    + split; [apply derivable_pt_lim_sin|apply Rabs_le, COS_bound].
Qed.
Lemma moving_solution t0 t1 : evolution 2 [2 * PI; 2 * PI] (carried_by 2 gusts) t0 t1 moving.
Proof.
  split.
  - intros m t _ a i p Hi. unfold moving. destruct i as [|[|i]]; [| |lia]; unfold inc, at_coord; cbn [Nat.eq_dec nat_rec nat_rect].
    + cbn -[sin INR PI pow Nat.add]. destruct (a 1%nat) as [|k]; [|apply derivable_pt_lim_const]. change (S (a O) + m)%nat with (S (a O + m)). rewrite quarter.
      eapply derivable_pt_lim_ext; [|eapply dl_eq; [|apply (dsinlin ((-1) ^ m) 1 (- t + INR (a O + m) * (PI / 2)))]].
      * intros s. cbv beta. do 2 f_equal. ring.
      * cbv beta. rewrite !Rmult_1_l. do 2 f_equal. ring.
    + cbn -[sin INR PI pow Nat.add]. destruct (a 1%nat) as [|k]; apply derivable_pt_lim_const.
  - intros m a t p _. unfold moving. destruct (a 1%nat) as [|k]; [|apply derivable_pt_lim_const].
    replace (a O + S m)%nat with (S (a O + m)) by lia. rewrite quarter.
    eapply derivable_pt_lim_ext; [|eapply dl_eq; [|apply (dsinlin ((-1) ^ m) (-1) (p O + INR (a O + m) * (PI / 2)))]].
    + intros s. cbv beta. do 2 f_equal. ring.
    + cbv beta. cbn [pow]. replace (-1 * t + (p O + INR (a O + m) * (PI / 2))) with (p O - t + INR (a O + m) * (PI / 2)) by ring. ring.
  - intros t p _. unfold carried_by, moving, inc, none. cbn [seq map fold_right Nat.eq_dec nat_rec nat_rect]. cbn -[sin INR PI]. ring.
  - intros t _ i p L H. assert (S : forall z, sin (z + 2 * PI) = sin z) by (intros z; rewrite <- (sin_period z 1); f_equal; cbn; ring).
    destruct i as [|[|i]]; cbn in H; [| |destruct i; discriminate]; injection H as <-; unfold moving, at_coord, none; cbn -[INR sin PI]; [|reflexivity].
    replace (p O + 2 * PI - t + INR 0 * (PI / 2)) with (p O - t + INR 0 * (PI / 2) + 2 * PI) by ring. rewrite S. reflexivity.
  - intros m a. exists 1. intros t p _. unfold moving. destruct (a 1%nat); [|rewrite Rabs_R0; lra].
    rewrite Rabs_mult, pow_1_abs, Rmult_1_l. apply Rabs_le, SIN_bound.
Qed.

(** ** winds without discrete divergence that feed the field: (2, 0, 2, 0) along the first axis of 4 x 1 points *)
From Verif Require Import SymModel FDExprModel GridModel GridSpec GridMore ForecastModel ForecastSpec SchemesModel SchemesSpec LineModel LineConv EnergySpec EnergyProofs AdvectTrend AdvectGrid AdvectConv.
From Coq Require Import Permutation.
Definition pulses : list (list nat -> R) := [fun js => if Nat.even (nth 0 js O) then 2 else 0; fun _ => 0].
Lemma pulses_class : exists g d, init_index ["x"%string; "y"%string] [4%nat; 1%nat] = Ok d /\
  advect_class Plane [4; 1] [4%nat; 1%nat] pulses (fun l => l) (fun l => l) g (fun _ _ _ => d) (plane_attr pulses).
Proof.
  destruct (@grid_init_ok RF ["x"%string; "y"%string] (Some [4%nat; 1%nat]) (Some [4; 1])) as (g & Hg & _); try reflexivity.
  { repeat constructor; cbn; intuition discriminate. }
  { intros m [<-|[<-|[]]]; lia. }
  exists g. eexists. split; [reflexivity|]. split; auto; try (intros; apply Permutation_refl).
  - split; [reflexivity|]. intros L [<-|[<-|[]]]; lra.
  - intros t v h. exists []. eexists. split; reflexivity.
  - repeat constructor.
Qed.
Lemma pulses_points (P : list nat -> Prop) : P [0; 0]%nat -> P [1; 0]%nat -> P [2; 0]%nat -> P [3; 0]%nat -> forall js, in_range [4%nat; 1%nat] js -> P js.
Proof.
  intros P0 P1 P2 P3 js H. inversion H as [|? i ? ? Hi Hj]; subst. inversion Hj as [|? j ? ? Hk Hl]; subst. inversion Hl; subst.
  assert (j = O) as -> by lia. destruct i as [|[|[|[|i]]]]; auto. lia.
Qed.
Lemma pulses_divergence js : in_range [4%nat; 1%nat] js -> divergence [4; 1] [4%nat; 1%nat] (wind_along pulses) js = 0.
Proof.
  revert js. apply pulses_points; unfold divergence, over_axes, slope, wind_along, step_of; cbn; unfold Rdiv; ring.
Qed.
Lemma pulses_flow a js : in_range [4%nat; 1%nat] js -> flow [4; 1] [4%nat; 1%nat] (wind_along pulses) a js =
  match nth 0 js O with O => a [3; 0]%nat - a [1; 0]%nat | 2%nat => a [1; 0]%nat - a [3; 0]%nat | _ => 0 end.
Proof.
  revert js. apply pulses_points; unfold flow; rewrite cut_in by (repeat constructor); unfold transported, over_axes, slope, wind_along, step_of; cbn; field.
Qed.
Lemma pulses_step (dt : R) a js : in_range [4%nat; 1%nat] js ->
  @exp_taylor RF (list nat) (flow [4; 1] [4%nat; 1%nat] (wind_along pulses)) dt 4 a js =
  a js + dt * match nth 0 js O with O => a [3; 0]%nat - a [1; 0]%nat | 2%nat => a [1; 0]%nat - a [3; 0]%nat | _ => 0 end.
Proof.
  intros H. set (f := flow [4; 1] [4%nat; 1%nat] (wind_along pulses)).
  assert (Z : forall b js, in_range [4%nat; 1%nat] js -> f (f b) js = 0).
  { intros b. assert (R0 : forall i, (i < 4)%nat -> in_range [4%nat; 1%nat] [i; O]) by (intros; repeat (constructor; auto)).
    apply (pulses_points (fun js => f (f b) js = 0)); unfold f; rewrite (pulses_flow (flow _ _ _ b)) by (apply R0; lia); cbn [nth];
      rewrite ?(pulses_flow b [1%nat; O]), ?(pulses_flow b [3%nat; O]) by (apply R0; lia); cbn [nth]; ring. }
  cbn [exp_taylor]. unfold vadd, vscale. cbn [fadd fmul RF F].
  change (Nat.iter 4 f a) with (f (f (f (f a)))). change (Nat.iter 3 f a) with (f (f (f a))). change (Nat.iter 2 f a) with (f (f a)). change (Nat.iter 1 f a) with (f a).
  rewrite !Z by auto. unfold f at 1. rewrite pulses_flow by auto. cbn -[Nat.iter]. field.
Qed.
Definition pulse : list nat -> R := fun i => if Nat.eqb (nth 1 i O) 1 then 1 else 0.
Lemma pulses_grow : exists g d traj r, init_index ["x"%string; "y"%string] [4%nat; 1%nat] = Ok d /\
  advect_class Plane [4; 1] [4%nat; 1%nat] pulses (fun l => l) (fun l => l) g (fun _ _ _ => d) (plane_attr pulses) /\
  forecast Req_EM_T Rminus (@rk4 RF (list nat))
    (generated_trend (fun l => l) (fun _ => 0) (fun l => l) (fun a _ => a) (axes Plane) g (fun _ _ _ => d) (plane_attr pulses) (advection Plane)) [0; 1] pulse SNone = Ok traj /\
  dget Req_EM_T 1 traj = Some r /\ energy [4%nat; 1%nat] r = 3 * energy [4%nat; 1%nat] pulse.
Proof.
  destruct pulses_class as (g & d & Hd & AC). exists g, d.
  destruct (forecast_keeps (@rk4 RF (list nat)) (generated_trend (fun l => l) (fun _ => 0) (fun l => l) (fun a _ => a) (axes Plane) g (fun _ _ _ => d) (plane_attr pulses) (advection Plane))
    (fun t r => (t = 0 /\ r = pulse) \/ (t = 1 /\ energy [4%nat; 1%nat] r = 3 * energy [4%nat; 1%nat] pulse)) [0; 1] pulse SNone 0) as (traj & E & H).
  - discriminate.
  - reflexivity.
  - left. auto.
  - intros k t t' r Hk Hk' Hr. destruct k as [|[|k]]; cbn in Hk, Hk'; try discriminate.
    injection Hk as <-. injection Hk' as <-. destruct Hr as [[_ ->]|[C _]]; [|lra].
    destruct (step_view Plane [4; 1] [4%nat; 1%nat] pulses (fun l => l) (fun _ => 0) (fun l => l) (fun a _ => a) g (fun _ _ _ => d) (plane_attr pulses) AC SRk4 0 (1 - 0) pulse) as (r & Er & Ev).
    exists r. split; [exact Er|]. right. split; [lra|]. rewrite energy_view, Ev. cbn [onestep_order]. unfold dot.
    transitivity (GS [4%nat; 1%nat] (fun js => match nth 0 js O with 3%nat => 0 | _ => 1 end)).
    + apply gs_ext. apply pulses_points; rewrite !pulses_step by (repeat constructor); unfold view; rewrite !cut_in by (repeat constructor); cbn; ring.
    + unfold GS, energy, field, pulse. cbn. ring.
  - destruct (H 1 ltac:(right; left; reflexivity) ltac:(right; left; reflexivity)) as (r & G & [[C _]|[_ Hr]]); [lra|].
    exists traj, r. auto 10.
Qed.
