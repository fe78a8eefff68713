(** Consistency of the generated derivatives on the periodic grid, and of the trend. *)
From Coq Require Import List Arith ZArith Bool Reals QArith Qreals String Lia Lra FunctionalExtensionality Permutation.
From Verif Require Import PyBase PyBaseFacts Scalars FieldFacts SymModel FDExprModel FDExprSpec FDExprProofs FDReal
  GridModel GridSpec GridProofs GridMore CodegenSpec ConsistSpec ConsistModel ConsistProofs.
Import ListNotations.
Close Scope Q_scope.
Open Scope nat_scope.
Open Scope list_scope.
Open Scope R_scope.

Lemma fnat_INR n : @fnat RF n = INR n.
Proof. induction n as [|n IH]; [reflexivity|]. rewrite S_INR. cbn [fnat]. rewrite IH. cbn. ring. Qed.
Lemma fz_IZR z : @fz RF z = IZR z.
Proof.
  destruct z as [|p|p]; cbn [fz]; [reflexivity| |]; rewrite fnat_INR, INR_IPR; reflexivity.
Qed.

Ltac rr := lazymatch goal with |- @eq _ ?a ?b => change (@eq R a b) end; ring.

(** ** periods *)
Section Periods.
  Variables (lengths : list R) (f : point -> R).
  Hypothesis PER : periodic lengths f.
  Lemma period_nat i (p : point) L k : nth_error lengths i = Some L -> f (@at_coord RF p i (p i + INR k * L)%R) = f p.
  Proof.
    intros Hi. induction k as [|k IH].
    - change (INR 0) with 0. rewrite Rmult_0_l, Rplus_0_r, at_self. reflexivity.
    - rewrite <- IH. rewrite <- (PER i (@at_coord RF p i (p i + INR k * L)%R) L Hi). rewrite at_twice, at_same.
      rewrite S_INR. f_equal. f_equal. rr.
  Qed.
  Lemma period_Z i (p : point) L k : nth_error lengths i = Some L -> f (@at_coord RF p i (p i + IZR k * L)%R) = f p.
  Proof.
    intros Hi. destruct (Z_le_dec 0 k) as [Hk|Hk].
    - rewrite <- (Z2Nat.id k) by lia. rewrite <- INR_IZR_INZ. apply period_nat; auto.
    - set (q := @at_coord RF p i (p i + IZR k * L)%R).
      rewrite <- (period_nat i q L (Z.to_nat (- k)) Hi). f_equal. unfold q. rewrite at_twice, at_same.
      replace (p i + IZR k * L + INR (Z.to_nat (- k)) * L) with (p i); [apply at_self|].
      rewrite INR_IZR_INZ, Z2Nat.id, opp_IZR by lia. rr.
  Qed.
  Lemma period_all (p p' : point) : (forall i L, nth_error lengths i = Some L -> exists k, p' i = p i + IZR k * L) ->
    (forall i, (List.length lengths <= i)%nat -> p' i = p i) -> f p' = f p.
  Proof.
    intros H1 H2.
    assert (G : forall m, (m <= List.length lengths)%nat -> f (fun i => if lt_dec i m then p' i else p i) = f p).
    { induction m as [|m IH]; intros Hm.
      - reflexivity.
      - rewrite <- IH by lia. set (q := fun i => if lt_dec i m then p' i else p i).
        destruct (nth_error lengths m) as [L|] eqn:E; [|apply nth_error_None in E; lia].
        destruct (H1 m L E) as [k Hk].
        rewrite <- (period_Z m q L k E). f_equal. apply functional_extensionality. intros i. unfold at_coord.
        destruct (Nat.eq_dec m i) as [<-|N].
        + unfold q. destruct (lt_dec m m); [lia|]. destruct (lt_dec m (S m)); [auto|lia].
        + unfold q. destruct (lt_dec i (S m)), (lt_dec i m); try lia; reflexivity. }
    rewrite <- (G (List.length lengths)) by auto. f_equal. apply functional_extensionality. intros i.
    destruct (lt_dec i (List.length lengths)); auto. apply H2. lia.
  Qed.
End Periods.

Definition spacings (lengths : list R) (shape : list nat) : list R :=
  map (fun ls => fst ls / INR (snd ls)) (combine lengths shape).
Lemma spacings_length lengths shape : List.length shape = List.length lengths -> List.length (spacings lengths shape) = List.length lengths.
Proof. intros H. unfold spacings. rewrite map_length, combine_length. lia. Qed.
Lemma spacings_nth lengths : forall shape i L, List.length shape = List.length lengths -> nth_error lengths i = Some L ->
  exists n, nth_error shape i = Some n /\ nth i (spacings lengths shape) 0 = L / INR n.
Proof.
  induction lengths as [|l lengths IH]; intros [|n shape] [|i] L Hl Hi; try discriminate; cbn in Hi.
  - injection Hi as <-. exists n. split; reflexivity.
  - apply (IH shape i L); auto.
Qed.

Lemma nth_wrap shape : forall disp js i n, List.length disp = List.length shape -> List.length js = List.length shape ->
  nth_error shape i = Some n ->
  nth i (wrap shape disp js) O = Z.to_nat ((Z.of_nat (nth i js O) + nth i disp 0%Z) mod Z.of_nat n).
Proof.
  induction shape as [|m shape IH]; intros [|s disp] [|j js] [|i] n Hd Hj Hi; try discriminate; cbn in Hi.
  - injection Hi as <-. reflexivity.
  - cbn [wrap nth]. apply IH; auto.
Qed.
Lemma wrap_length shape : forall disp js, List.length disp = List.length shape -> List.length js = List.length shape ->
  List.length (wrap shape disp js) = List.length shape.
Proof. induction shape as [|m shape IH]; intros [|s disp] [|j js] Hd Hj; try discriminate; auto. cbn. f_equal. auto. Qed.
Lemma in_range_length shape js : in_range shape js -> List.length js = List.length shape.
Proof. intros H. induction H; cbn; auto. Qed.

Lemma sample_wrap lengths shape f disp js : periodic lengths f -> List.length shape = List.length lengths ->
  (forall n, In n shape -> n <> O) -> List.length disp = List.length shape -> List.length js = List.length shape ->
  sample (spacings lengths shape) f (wrap shape disp js) =
  f (@displaced RF (grid_point (spacings lengths shape) js) (fun i => nth i (spacings lengths shape) 0) disp).
Proof.
  intros P Ls Hn Ld Lj. unfold sample. symmetry. apply (period_all lengths f P).
  - intros i L Hi. destruct (spacings_nth lengths shape i L Ls Hi) as (n & Hs & E).
    assert (N : n <> O) by (apply Hn; eapply nth_error_In; eauto).
    exists ((Z.of_nat (nth i js O) + nth i disp 0) / Z.of_nat n)%Z.
    unfold displaced, grid_point. rewrite (nth_wrap shape disp js i n) by auto. rewrite E, fz_IZR.
    set (a := (Z.of_nat (nth i js O) + nth i disp 0)%Z).
    rewrite (INR_IZR_INZ (Z.to_nat _)). rewrite Z2Nat.id by (apply Z.mod_pos_bound; lia).
    assert (A : IZR a = IZR (Z.of_nat n) * IZR (a / Z.of_nat n) + IZR (a mod Z.of_nat n)).
    { rewrite <- mult_IZR, <- plus_IZR. f_equal. apply Z.div_mod. lia. }
    assert (B : INR (nth i js O) + IZR (nth i disp 0%Z) = IZR a) by (unfold a; rewrite plus_IZR, <- INR_IZR_INZ; reflexivity).
    assert (Nr : INR n <> 0) by (apply not_0_INR; auto). rewrite <- INR_IZR_INZ in A.
    change (INR (nth i js O) * (L / INR n) + IZR (nth i disp 0%Z) * (L / INR n) = 
            IZR (a mod Z.of_nat n) * (L / INR n) + IZR (a / Z.of_nat n) * L).
    rewrite <- Rmult_plus_distr_r, B, A. field. auto.
  - intros i Hi. unfold displaced, grid_point.
    rewrite (nth_overflow (spacings lengths shape)) by (rewrite spacings_length; auto). cbn. ring.
Qed.

(** ** the code of a derivative *)
Lemma total_orders coords : NoDup coords -> forall v ds, variables coords v = Ok ds ->
  total ds = orders coords v /\ (forall i o, In (i, o) ds -> (i < List.length coords)%nat).
Proof.
  intros ND v. induction v as [|[c o] v IH]; intros ds H.
  - injection H as <-. split; [|intros i o []]. apply functional_extensionality. intros i. unfold orders.
    destruct (nth_error coords i); reflexivity.
  - unfold variables in *. cbn [mapM fst snd] in H. destruct (pos_of c coords) as [i|] eqn:P; [|discriminate].
    destruct (mapM _ v) as [ds'|] eqn:M; [|discriminate]. cbn in H. injection H as <-.
    destruct (IH ds' eq_refl) as [T I]. 
    assert (Ci : nth_error coords i = Some c) by (apply pos_of_nth; auto).
    split.
    + cbn [total fold_right fst snd]. fold (total ds'). rewrite T. apply functional_extensionality. intros j.
      unfold addm, only, orders. destruct (nth_error coords j) as [d|] eqn:D.
      * unfold order_in. cbn [filter fst]. destruct (Nat.eq_dec i j) as [<-|N].
        -- assert (d = c) by congruence. subst. rewrite String.eqb_refl. reflexivity.
        -- destruct (String.eqb_spec c d) as [<-|Nc]; [|reflexivity]. exfalso. apply N.
           eapply NoDup_nth_error; eauto; [apply nth_error_Some; congruence|congruence].
      * destruct (Nat.eq_dec i j) as [<-|N]; [congruence|reflexivity].
    + intros k q [E|E]; [|eapply I; eauto]. injection E as <- <-. apply nth_error_Some. congruence.
Qed.
Lemma variables_ok coords v : (forall c, In c (map fst v) -> In c coords) -> exists ds, variables coords v = Ok ds.
Proof.
  induction v as [|[c o] v IH]; intros H; [eexists; reflexivity|].
  destruct IH as [ds E]; [intros d Hd; apply H; right; auto|]. unfold variables in *. cbn [mapM fst snd].
  destruct (pos_of c coords) as [i|] eqn:P.
  - cbn [bind]. rewrite E. eexists. reflexivity.
  - destruct (pos_of_In c coords) as (k & Hk & _); [apply H; left; auto|congruence].
Qed.

Lemma grid_shape_valid {K : Fld} coords (lengths : list K) shape (g : @grid K) : List.length lengths = List.length coords ->
  grid_init coords (Some shape) (Some lengths) = Ok g ->
  List.length shape = List.length coords /\ (forall n, In n shape -> n <> O).
Proof.
  intros LEN. unfold grid_init. cbn [negb]. destruct (Nat.eqb_spec (List.length shape) (List.length coords)) as [E|]; [|discriminate].
  rewrite LEN, Nat.eqb_refl. cbn [negb]. intros H. split; auto. intros n Hn ->.
  destruct (init_index coords shape); [|discriminate]. cbn [bind] in H.
  destruct (mapM div_shape (combine lengths shape)) as [l|] eqn:M; [|discriminate].
  rewrite <- LEN in E. clear - Hn E M. revert shape l E Hn M.
  induction lengths as [|L ls IH]; intros [|n shape] l E Hn M; try discriminate; [destruct Hn|].
  cbn [combine mapM] in M. unfold div_shape in M at 1. cbn [fst snd] in M.
  destruct (Nat.eqb_spec n 0) as [->|N]; [discriminate|]. cbn [bind] in M.
  destruct Hn as [->|Hn]; [congruence|].
  destruct (mapM div_shape (combine ls shape)) as [l'|] eqn:M'; [|discriminate].
  eapply IH; eauto.
Qed.

Section Derivative.
  Variables (coords : list string) (lengths : list R).
  Hypothesis ND : NoDup coords.
  Hypothesis LEN : List.length lengths = List.length coords.
  Hypothesis POS : forall L, In L lengths -> 0 < L.

  Lemma grid_spacings shape (g : @grid RF) : @grid_init RF coords (Some shape) (Some lengths) = Ok g ->
    List.length shape = List.length coords -> (forall n, In n shape -> n <> O) ->
    g_shape g = shape /\ g_dx g = spacings lengths shape.
  Proof.
    intros H Ls Hn.
    destruct (@grid_init_ok RF coords (Some shape) (Some lengths) ND Ls LEN Hn) as (g' & H' & E1 & _ & E2 & _).
    rewrite H in H'. injection H' as <-. split; auto. rewrite E2. unfold spacings. apply map_ext.
    intros [l n]. rewrite fnat_INR. reflexivity.
  Qed.
  Lemma grid_valid shape (g : @grid RF) : @grid_init RF coords (Some shape) (Some lengths) = Ok g ->
    List.length shape = List.length coords /\ (forall n, In n shape -> n <> O).
  Proof. apply (@grid_shape_valid RF). exact LEN. Qed.

  Lemma spacing_bounds shape i : List.length shape = List.length coords -> (forall n, In n shape -> n <> O) ->
    (i < List.length coords)%nat -> 0 < nth i (spacings lengths shape) 0 <= largest (spacings lengths shape).
  Proof.
    intros Ls Hn Hi. destruct (nth_error lengths i) as [L|] eqn:E; [|apply nth_error_None in E; lia].
    destruct (spacings_nth lengths shape i L ltac:(lia) E) as (n & Hs & Hv). split.
    - rewrite Hv. apply Rdiv_lt_0_compat; [apply POS; eapply nth_error_In; eauto|].
      apply lt_0_INR. assert (n <> O) by (apply Hn; eapply nth_error_In; eauto). lia.
    - assert (I : In (nth i (spacings lengths shape) 0) (spacings lengths shape)).
      { apply nth_In. rewrite spacings_length; lia. }
      revert I. generalize (nth i (spacings lengths shape) 0). generalize (spacings lengths shape). clear.
      induction l as [|a l IH]; intros r H; [destruct H|]. destruct H as [<-|H]; cbn; [apply Rmax_l|].
      eapply Rle_trans; [apply IH; auto|apply Rmax_r].
  Qed.
  Lemma largest_pos l : 0 <= largest l.
  Proof. induction l as [|a l IH]; cbn; [lra|]. eapply Rle_trans; [exact IH|apply Rmax_r]. Qed.
  Lemma largest_bound shape : List.length shape = List.length coords -> (forall n, In n shape -> n <> O) ->
    largest (spacings lengths shape) <= largest lengths.
  Proof.
    intros Ls Hn. rewrite <- LEN in Ls. clear ND LEN. revert shape Ls Hn. revert POS.
    induction lengths as [|L ls IH]; intros P [|n shape] Ls Hn; try discriminate; [cbn; lra|].
    unfold spacings. cbn [combine map fst snd]. fold (spacings ls shape). cbn [largest fold_right].
    change (Rmax (L / INR n) (largest (spacings ls shape)) <= Rmax L (largest ls)).
    apply Rmax_case.
    - eapply Rle_trans; [|apply Rmax_l]. assert (1 <= INR n). 
      { change 1 with (INR 1). apply le_INR. assert (n <> O) by (apply Hn; left; auto). lia. }
      assert (0 < L) by (apply P; left; auto). apply Rmult_le_reg_r with (INR n); [lra|].
      unfold Rdiv. rewrite Rmult_assoc, Rinv_l by lra. nra.
    - eapply Rle_trans; [|apply Rmax_r]. apply IH; auto; intros; [apply P; right; auto|apply Hn; right; auto].
  Qed.

  Theorem code_is_shift (x : nat -> R) ord shape (g : @grid RF) d hist v ds (a : list nat -> R) :
    (forall l, Permutation (ord l) l) ->
    @grid_init RF coords (Some shape) (Some lengths) = Ok g -> after_history coords shape hist d ->
    variables coords v = Ok ds ->
    exists b, @derivative_code RF x ord coords g d v a = Ok b /\
      forall js, in_range shape js -> b js = tval RF (fun d => a (wrap shape d js)) (tensor RF (@spacing RF g) (repeat 0%Z (List.length coords)) ds).
  Proof.
    intros Ho Hg Hd Hv. destruct (grid_valid shape g Hg) as [Ls Hn].
    destruct (grid_spacings shape g Hg Ls Hn) as [Es Ed].
    destruct (total_orders coords ND v ds Hv) as [_ Hi].
    pose proof (after_history_good coords shape hist d ND Ls Hd) as Gd.
    unfold derivative_code. rewrite Hv. cbn [bind].
    set (dx := @spacing RF g).
    assert (Pos : forall i o, In (i, o) ds -> dx i <> 0).
    { intros i o I. unfold dx, spacing. rewrite Ed. pose proof (spacing_bounds shape i Ls Hn (Hi i o I)) as H.
      apply Rgt_not_eq. apply H. }
    rewrite (fdd_tensor RF x dx ord Ho (S (List.length ds)) (repeat 0%Z (List.length coords)) ds (Nat.lt_succ_diag_r _) Pos).
    cbn [bind]. fold (shifts RF (tensor RF dx (repeat 0%Z (List.length coords)) ds)). rewrite Es.
    destruct (eval_terms_good RF coords shape ND Ls a (shifts RF (tensor RF dx (repeat 0%Z (List.length coords)) ds)))
      with (d := d) as (b & E & Hb & _); auto.
    { intros c disp I. apply shifts_lengths in I. rewrite I. apply repeat_length. }
    exists b. split; [exact E|]. intros js R. rewrite Hb by auto. apply lin_shift_tval.
  Qed.

  Theorem code_is_partials (x : nat -> R) ord shape (g : @grid RF) d hist v ds (f : point -> R) (a : list nat -> R) :
    (forall l, Permutation (ord l) l) ->
    @grid_init RF coords (Some shape) (Some lengths) = Ok g -> after_history coords shape hist d ->
    variables coords v = Ok ds -> periodic lengths f ->
    (forall js, in_range shape js -> a js = f (grid_point (g_dx g) js)) ->
    exists b, @derivative_code RF x ord coords g d v a = Ok b /\
      forall js, in_range shape js -> b js = @partials RF (@spacing RF g) ds f (grid_point (g_dx g) js).
  Proof.
    intros Ho Hg Hd Hv P Ha. destruct (grid_valid shape g Hg) as [Ls Hn].
    destruct (grid_spacings shape g Hg Ls Hn) as [Es Ed].
    destruct (total_orders coords ND v ds Hv) as [_ Hi].
    destruct (code_is_shift x ord shape g d hist v ds a Ho Hg Hd Hv) as (b & E & Hb).
    exists b. split; [exact E|]. intros js R. rewrite Hb by auto. rewrite Ed. clear b E Hb.
    set (dx := @spacing RF g).
    assert (Edx : dx = fun i => nth i (spacings lengths shape) 0).
    { apply functional_extensionality. intros i. unfold dx, spacing. rewrite Ed. reflexivity. }
    assert (Lj := in_range_length _ _ R).
    assert (T := tensor_value RF (grid_point (spacings lengths shape) js) dx f ds (repeat 0%Z (List.length coords))).
    rewrite repeat_length in T. specialize (T Hi).
    assert (Z0 : @displaced RF (grid_point (spacings lengths shape) js) dx (repeat 0%Z (List.length coords)) =
                 grid_point (spacings lengths shape) js).
    { apply functional_extensionality. intros i. unfold displaced.
      replace (nth i (repeat 0%Z (List.length coords)) 0%Z) with 0%Z.
      - change (grid_point (spacings lengths shape) js i + 0 * dx i = grid_point (spacings lengths shape) js i). rr.
      - clear. revert i. induction (List.length coords); intros [|i]; cbn; auto. }
    rewrite Z0 in T. rewrite <- T. unfold tval, terms_value.
    assert (Lt : forall t, In t (tensor RF dx (repeat 0%Z (List.length coords)) ds) -> List.length (fst (snd t)) = List.length coords).
    { intros t It. rewrite (tensor_lengths RF dx ds _ t It). apply repeat_length. }
    clear T. induction (tensor RF dx (repeat 0%Z (List.length coords)) ds) as [|t l IH]; [reflexivity|].
    cbn [fold_right]. rewrite IH by (intros; apply Lt; right; auto).
    assert (Lt' : List.length (fst (snd t)) = List.length shape) by (rewrite Ls; apply Lt; left; auto).
    assert (Ea : a (wrap shape (fst (snd t)) js) = f (@displaced RF (grid_point (spacings lengths shape) js) dx (fst (snd t)))).
    { rewrite Ha by (apply wrap_in_range; auto). rewrite Ed, Edx.
      apply (sample_wrap lengths shape f (fst (snd t)) js); auto; lia. }
    rewrite Ea. reflexivity.
  Qed.
End Derivative.
