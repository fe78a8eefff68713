(** Property theorems: the generated finite-difference model is second-order consistent. *)
From Coq Require Import List Arith ZArith Bool Reals QArith Qreals String Lia Lra Permutation FunctionalExtensionality.
From Verif Require Import PyBase Scalars FieldFacts SymModel FDExprModel FDExprSpec FDReal PDEModel PDEProps CodegenModel
  StrModel GridModel GridSpec CodegenSpec CodegenProps ConsistSpec ConsistModel ConsistProofs ConsistMain ConsistFinal ConsistWaves.
Import ListNotations.
Close Scope Q_scope.
Open Scope nat_scope.
Open Scope string_scope.
Open Scope list_scope.
Open Scope R_scope.

(** C107 *)
Theorem C107_derivative coords (lengths : list R) (Wf : multi -> point -> R) v :
  NoDup coords -> List.length lengths = List.length coords -> (forall L, In L lengths -> 0 < L) ->
  smooth (List.length coords) Wf -> periodic lengths (Wf none) -> (forall c, In c (map fst v) -> In c coords) ->
  exists C, forall x ord shape (g : @grid RF) d hist a,
    (forall l, Permutation (ord l) l) -> @grid_init RF coords (Some shape) (Some lengths) = Ok g ->
    after_history coords shape hist d ->
    (forall js, in_range shape js -> a js = Wf none (grid_point (g_dx g) js)) ->
    exists b, @derivative_code RF x ord coords g d v a = Ok b /\
      forall js, in_range shape js -> Rabs (b js - Wf (orders coords v) (grid_point (g_dx g) js)) <= C * largest (g_dx g) ^ 2.
Proof. intros ND LEN POS. exact (derivative_consistent coords lengths ND LEN POS Wf v). Qed.
Print Assumptions C107_derivative.

Theorem C107_trend coords (lengths : list R) (rpow : R -> R -> R) (W : sx -> multi -> point -> R) (kappa : sx -> R)
    enum (E : forall l, Permutation (enum l) l) eqs (S : pdes) :
  NoDup coords -> List.length lengths = List.length coords -> (forall L, In L lengths -> 0 < L) ->
  (forall a n, rpow a (INR n) = a ^ n) ->
  pde_system enum eqs = Ok S -> translatable S eqs ->
  (forall q, In q eqs -> algebraic coords rpow W kappa (snd q)) ->
  (forall f l, occurs eqs (SApp f l) -> smooth (List.length coords) (W (SApp f l)) /\ periodic lengths (W (SApp f l) none)) ->
  (forall f v c, occurs eqs (SDer f v) -> In c (map fst v) -> In c coords) ->
  exists C, forall x ord shape (g : @grid RF) caches rho attr exogenous state,
    (forall l, Permutation (ord l) l) -> @grid_init RF coords (Some shape) (Some lengths) = Ok g ->
    (forall v a, exists hist, after_history coords shape hist (caches v a)) ->
    (forall f l js, occurs eqs (SApp f l) -> in_range shape js -> rho (SApp f l) js = W (SApp f l) none (grid_point (g_dx g) js)) ->
    state = map rho (s_prognostic S) ->
    (forall f, In f (s_constant S) -> attr (function_keyvar f) = Ok (rho f)) ->
    (forall c, In c (s_constants S) -> attr (constant_keyvar c) = Ok (fun _ => kappa c)) ->
    (s_exogenous S <> [] -> exogenous = Some (map rho (enum (s_exogenous S)))) ->
    exists prog rows, trend_program enum S eqs = Ok prog /\
      run_trend (list nat -> R) a_num a_add a_mul (a_pow rpow) (fun _ => 0) (fun _ => 1)
        (fun v a => @derivative_code RF x ord coords g (caches v a) v a) attr exogenous prog state = Ok (rows, state) /\
      Forall2 (fun q row => forall js, in_range shape js ->
        Rabs (row js - exact coords rpow W kappa (snd q) (grid_point (g_dx g) js)) <= C * largest (g_dx g) ^ 2) eqs rows.
Proof.
  intros ND LEN POS POW B T AL SM DV.
  destruct (trend_consistent coords lengths ND LEN POS rpow W kappa POW enum E eqs S B T AL SM DV) as (C & HC).
  exists C. intros x ord shape g caches rho attr exogenous state H1 H2 H3 H4.
  exact (HC (mkInst coords lengths W eqs x ord shape g caches rho H1 H2 H3 H4) attr exogenous state).
Qed.
Print Assumptions C107_trend.

(** the forced Burgers equation of C29, on four points, all the functions being the wave *)
Example C107_example : forall (q : equation), In q forced ->
  algebraic ["x"] natpow (fun _ => wave) (fun _ => 3) (snd q).
Proof.
  intros q [<-|[]]. cbn [snd]. unfold u_, F_, h_.
  repeat first [apply Forall_nil | apply Forall_cons | apply al_add | apply al_mul | apply al_num | apply al_sym
               | apply al_app | apply al_der].
Qed.
Example C107_derivatives_example : forall f v c, occurs forced (SDer f v) -> In c (map fst v) -> In c ["x"].
Proof.
  intros f v c (q & [<-|[]] & H) Hc. cbn in H. repeat (destruct H as [H|H]; [try discriminate|]); try contradiction;
    injection H as <- <-; exact Hc.
Qed.
Example C107_forced_example : exists C, forall shape (g : @grid RF) d, @grid_init RF ["x"] (Some shape) (Some [1]) = Ok g ->
  init_index ["x"] shape = Ok d ->
  let w := fun js => wave none (grid_point (g_dx g) js) in
  exists prog row, trend_program (fun l => l) forced_system forced = Ok prog /\
    run_trend (list nat -> R) a_num a_add a_mul (a_pow natpow) (fun _ => 0) (fun _ => 1)
      (fun v a => @derivative_code RF (fun _ => 0) (fun l => l) ["x"] g d v a)
      (fun s => if String.eqb s "kappa" then Ok (fun _ => 3) else Ok w) (Some [w]) prog [w] = Ok ([row], [w]) /\
    forall j, (j < nth 0 shape 0)%nat -> let s := sin (2 * PI * (INR j * nth 0 (g_dx g) 0)) in
      let c := cos (2 * PI * (INR j * nth 0 (g_dx g) 0)) in
      Rabs (row [j] - (- s * (2 * PI * c) + 3 * (- (4 * PI ^ 2) * s) + s + s)) <= C * largest (g_dx g) ^ 2.
Proof.
  destruct (C107_trend ["x"] [1] natpow (fun _ => wave) (fun _ => 3) (fun l => l) (fun l => Permutation_refl l) forced forced_system)
    as (C & HC).
  - repeat constructor. intros [].
  - reflexivity.
  - intros L [<-|[]]. lra.
  - apply natpow_nat.
  - apply forced_ok.
  - apply C29_example.
  - apply C107_example.
  - intros. split; [apply wave_smooth|apply wave_periodic].
  - apply C107_derivatives_example.
  - exists C. intros shape g d Hg Hd w.
    destruct (HC (fun _ => 0) (fun l => l) shape g (fun _ _ => d) (fun _ => w)
      (fun s => if String.eqb s "kappa" then Ok (fun _ => 3) else Ok w) (Some [w]) [w]) as (prog & rows & H1 & H2 & H3); auto.
    + intros v a. exists []. exists d. split; auto.
    + intros f [<-|[]]. reflexivity.
    + intros c [<-|[]]. reflexivity.
    + inversion H3 as [|q row l' rows' H4 H5]; subst. inversion H5; subst. exists prog, row.
      split; auto. split; auto. intros j Hj s c.
      destruct (@grid_shape_valid RF ["x"] [1] shape g eq_refl Hg) as [Ls _].
      destruct shape as [|n [|m shape]]; try discriminate. cbn [nth] in Hj.
      specialize (H4 [j]). assert (R : in_range [n] [j]) by (repeat constructor; auto). specialize (H4 R).
      unfold u_, F_, h_ in H4. cbn [exact snd map fold_right] in H4.
      assert (E1 : forall p, wave (orders ["x"] [("x", 1%nat)]) p = 2 * PI * cos (2 * PI * p O)).
      { intros p. unfold wave. change (orders ["x"] [("x", 1%nat)] O) with 1%nat. cbn [pow INR].
        rewrite Rmult_1_r. f_equal. rewrite cos_sin. f_equal. ring. }
      assert (E2 : forall p, wave (orders ["x"] [("x", 2%nat)]) p = - (4 * PI ^ 2) * sin (2 * PI * p O)).
      { intros p. unfold wave. change (orders ["x"] [("x", 2%nat)] O) with 2%nat. 
        replace (2 * PI * p O + INR 2 * (PI / 2)) with (2 * PI * p O + PI) by (cbn; field).
        rewrite neg_sin. ring. }
      assert (E0 : forall p, wave none p = sin (2 * PI * p O)).
      { intros p. unfold wave, none. cbn [pow INR]. rewrite Rmult_1_l. f_equal. ring. }
      rewrite !E0, E1, E2 in H4. unfold grid_point in H4. cbn [nth] in H4.
      replace (Q2R (-1 # 1)) with (-1) in H4 by (unfold Q2R; cbn; field).
      change (Rabs (row [j] - (-1 * (s * (2 * PI * c * 1)) + (3 * (- (4 * PI ^ 2) * s * 1) + (s + (s + 0))))) <= C * largest (g_dx g) ^ 2) in H4.
      clearbody s c.
      replace (- s * (2 * PI * c) + 3 * (- (4 * PI ^ 2) * s) + s + s)
        with (-1 * (s * (2 * PI * c * 1)) + (3 * (- (4 * PI ^ 2) * s * 1) + (s + (s + 0)))) by ring. exact H4.
Qed.

(** without the period of the grid the differences at the seam do not converge: the field sin(x) on a
    grid of length pi *)
Theorem C107_periodic_needed : smooth 1 sine_field /\ forall shape (g : @grid RF) d,
  @grid_init RF ["x"] (Some shape) (Some [PI]) = Ok g -> init_index ["x"] shape = Ok d ->
  exists b, @derivative_code RF (fun _ => 0) (fun l => l) ["x"] g d [("x", 1%nat)]
              (fun js => sine_field none (grid_point (g_dx g) js)) = Ok b /\
    b [O] = 0 /\ sine_field (orders ["x"] [("x", 1%nat)]) (grid_point (g_dx g) [O]) = 1.
Proof. exact (conj sine_smooth seam_wrong). Qed.
Print Assumptions C107_periodic_needed.
Example C107_periodic_needed_example : exists (g : @grid RF) d,
  @grid_init RF ["x"] (Some [4%nat]) (Some [PI]) = Ok g /\ init_index ["x"] [4%nat] = Ok d.
Proof. do 2 eexists. split; reflexivity. Qed.

(** a mixed derivative of a field of two coordinates *)
Example C107_mixed_example : smooth 2 (fun a p => wave a p * wave (fun _ => a 1%nat) (fun _ => p 1%nat)) /\
  periodic [1; 1] (fun p => wave none p * wave none (fun _ => p 1%nat)) /\
  (orders ["x"; "y"] [("x", 1%nat); ("y", 2%nat)] O = 1%nat) /\ (orders ["x"; "y"] [("x", 1%nat); ("y", 2%nat)] 1%nat = 2%nat).
Proof.
  split; [|split; [|split; reflexivity]].
  - destruct wave_smooth as [D B]. split.
    + intros a i p Hi. destruct i as [|[|i]]; [| |lia].
      * pose proof (derivable_pt_lim_mult (fun s => wave a (@at_coord RF p 0 s)) (fun _ => wave (fun _ => a 1%nat) (fun _ => p 1%nat)) (p O) _ _
          (D a O p Nat.lt_0_1) (derivable_pt_lim_const _ (p O))) as H.
        cbv beta in H. rewrite Rmult_0_r, Rplus_0_r in H. exact H.
      * pose proof (derivable_pt_lim_mult (fun _ => wave a p) (fun s => wave (fun _ => a 1%nat) (fun _ => s)) (p 1%nat) _ _
          (derivable_pt_lim_const (wave a p) (p 1%nat)) (D (fun _ => a 1%nat) O (fun _ => p 1%nat) Nat.lt_0_1)) as H.
        cbv beta in H. rewrite Rmult_0_l, Rplus_0_l in H. exact H.
    + intros a. destruct (B a) as (B1 & H1), (B (fun _ => a 1%nat)) as (B2 & H2). exists (B1 * B2). intros p.
      rewrite Rabs_mult. apply Rmult_le_compat; auto using Rabs_pos.
  - intros i p L H. destruct i as [|[|i]]; [| |destruct i; discriminate]; injection H as <-.
    + pose proof (wave_periodic O p 1 eq_refl) as P. rewrite P. reflexivity.
    + pose proof (wave_periodic O (fun _ => p 1%nat) 1 eq_refl) as P. unfold at_coord at 1 2. cbn.
      f_equal. exact P.
Qed.
