(** Two fields: one with the period of the grid, one without. *)
From Coq Require Import List Arith ZArith Bool Reals String Lia Lra Permutation FunctionalExtensionality.
From Verif Require Import PyBase Scalars FieldFacts FDSpec FDProofs FDExprModel FDExprSpec FDExprProofs FDReal
  GridModel GridSpec GridMore ConsistSpec ConsistModel ConsistProofs ConsistMain.
Import ListNotations.
Open Scope nat_scope.
Open Scope string_scope.
Open Scope list_scope.
Open Scope R_scope.

(** a power that agrees with the natural powers *)
Definition natpow (a b : R) : R := a ^ Z.to_nat (Int_part b).
Lemma natpow_nat a n : natpow a (INR n) = a ^ n.
Proof. unfold natpow. rewrite Int_part_INR, Nat2Z.id. reflexivity. Qed.

(** sin(2 pi x) and its derivatives *)
Definition wave (a : multi) (p : point) : R := (2 * PI) ^ a O * sin (2 * PI * p O + INR (a O) * (PI / 2)).
Lemma wave_smooth : smooth 1 wave.
Proof.
  split.
  - intros a i p Hi. replace i with O by lia. unfold wave, inc. cbn [Nat.eq_dec].
    destruct (Nat.eq_dec 0 0) as [_|N]; [|congruence].
    set (k := (2 * PI) ^ a O). set (c := INR (a O) * (PI / 2)).
    replace ((2 * PI) ^ Datatypes.S (a O) * sin (2 * PI * p O + INR (Datatypes.S (a O)) * (PI / 2)))
      with (k * (cos (2 * PI * p O + c) * (2 * PI))).
    + apply (derivable_pt_lim_scal (fun s => sin (2 * PI * s + c)) k).
      apply (derivable_pt_lim_comp (fun s => 2 * PI * s + c) sin); [|apply derivable_pt_lim_sin].
      assert (D : derivable_pt_lim (fun s => 2 * PI * s + c) (p O) (2 * PI * 1 + 0)); [|rewrite Rmult_1_r, Rplus_0_r in D; exact D].
      apply (derivable_pt_lim_plus (fun s => 2 * PI * s) (fun _ => c)); [|apply derivable_pt_lim_const].
      apply (derivable_pt_lim_scal (fun s => s)). apply derivable_pt_lim_id.
    + replace (2 * PI * p O + INR (Datatypes.S (a O)) * (PI / 2)) with (PI / 2 + (2 * PI * p O + c)).
      * rewrite <- cos_sin. cbn [pow]. fold k. ring.
      * rewrite S_INR. unfold c. ring.
  - intros a. exists ((2 * PI) ^ a O). intros p. unfold wave. rewrite Rabs_mult.
    pose proof PI_RGT_0. rewrite (Rabs_right ((2 * PI) ^ a O)) by (apply Rle_ge, pow_le; lra).
    rewrite <- (Rmult_1_r ((2 * PI) ^ a O)) at 2. apply Rmult_le_compat_l; [apply pow_le; lra|].
    apply Rabs_le. apply SIN_bound.
Qed.
Lemma wave_periodic : periodic [1] (wave none).
Proof.
  intros i p L H. destruct i as [|i]; [|destruct i; discriminate]. injection H as <-. unfold wave, none.
  rewrite at_same. cbn [INR pow]. f_equal.
  replace (2 * PI * (p O + 1) + 0 * (PI / 2)) with (2 * PI * p O + 0 * (PI / 2) + 2 * INR 1 * PI) by (cbn; ring).
  apply sin_period.
Qed.

(** sin(x) and its derivatives *)
Definition sine_field (a : multi) (p : point) : R := sin (p O + INR (a O) * (PI / 2)).
Lemma sine_smooth : smooth 1 sine_field.
Proof.
  split.
  - intros a i p Hi. replace i with O by lia. unfold sine_field, inc.
    destruct (Nat.eq_dec 0 0) as [_|N]; [|congruence]. set (c := INR (a O) * (PI / 2)).
    replace (sin (p O + INR (S (a O)) * (PI / 2))) with (cos (p O + c) * (1 + 0)).
    + apply (derivable_pt_lim_comp (fun s => s + c) sin); [|apply derivable_pt_lim_sin].
      apply (derivable_pt_lim_plus (fun s => s) (fun _ => c)); [apply derivable_pt_lim_id|apply derivable_pt_lim_const].
    + replace (p O + INR (S (a O)) * (PI / 2)) with (PI / 2 + (p O + c)).
      * rewrite <- cos_sin. ring.
      * rewrite S_INR. unfold c. rr.
  - intros a. exists 1. intros p. apply Rabs_le. apply SIN_bound.
Qed.

Lemma seam_wrong shape (g : @grid RF) d :
  @grid_init RF ["x"] (Some shape) (Some [PI]) = Ok g -> init_index ["x"] shape = Ok d ->
  exists b, @derivative_code RF (fun _ => 0) (fun l => l) ["x"] g d [("x", 1%nat)]
              (fun js => sine_field none (grid_point (g_dx g) js)) = Ok b /\
    b [O] = 0 /\ sine_field (orders ["x"] [("x", 1%nat)]) (grid_point (g_dx g) [O]) = 1.
Proof.
  intros Hg Hd.
  assert (ND : NoDup ["x"]) by (repeat constructor; intros []).
  destruct (grid_valid ["x"] [PI] eq_refl shape g Hg) as [Ls Hn].
  destruct (grid_spacings ["x"] [PI] ND eq_refl shape g Hg Ls Hn) as [_ Ed].
  destruct (code_is_shift ["x"] [PI] ND eq_refl) with (x := fun _ : nat => 0) (ord := fun l : list datom => l) (shape := shape) (g := g)
     (d := d) (hist := @nil (string * Z)) (v := [("x", 1%nat)]) (ds := [(0%nat, 1%nat)])
     (a := fun js => sine_field none (grid_point (g_dx g) js)) as (b & E & Hb); auto.
  { intros L [<-|[]]. apply PI_RGT_0. }
  { exists d. auto. }
  exists b. split; [exact E|].
  destruct shape as [|n [|m shape]]; try discriminate.
  assert (Nn : (0 < n)%nat) by (assert (n <> O) by (apply Hn; left; auto); lia).
  split.
  - rewrite Hb by (repeat constructor; auto). rewrite tval_tensor_cons.
    set (f := fun k : Z => sine_field none (grid_point (g_dx g) (wrap [n] [k] [O]))).
    assert (S : forall k, f (- k)%Z = f k).
    { intros k. unfold f, sine_field, none, grid_point. cbn [wrap nth]. rewrite Ed. unfold spacings. cbn [combine map nth fst snd].
      change (INR 0) with 0. rewrite Rmult_0_l, !Rplus_0_r, !Z.add_0_l.
      destruct (Z.eq_dec (k mod Z.of_nat n) 0) as [Z0|Z0].
      - rewrite (Z.mod_opp_l_z k (Z.of_nat n)), Z0 by (auto; lia). reflexivity.
      - rewrite (Z.mod_opp_l_nz k (Z.of_nat n)) by (auto; lia).
        pose proof (Z.mod_pos_bound k (Z.of_nat n)) as Hk.
        rewrite !INR_IZR_INZ, !Z2Nat.id by lia. rewrite minus_IZR.
        assert (0 < IZR (Z.of_nat n)) by (apply IZR_lt; lia).
        rewrite <- (sin_PI_x (IZR (k mod Z.of_nat n) * (PI / IZR (Z.of_nat n)))). f_equal. field. lra. }
    assert (A := wsum_central_opp RF f 1 (@spacing RF g 0%nat)).
    rewrite (wsum_ext RF _ f) in A by exact S.
    assert (Ew : wsum RF (fun k => tval RF (fun d0 => sine_field none (grid_point (g_dx g) (wrap [n] d0 [O])))
                   (tensor RF (@spacing RF g) (addz 0 k (repeat 0%Z (List.length ["x"]))) [])) (@central RF 1 (@spacing RF g 0%nat))
                 = wsum RF f (@central RF 1 (@spacing RF g 0%nat))).
    { apply wsum_ext. intros k. unfold f. cbn. rr. }
    rewrite Ew. assert (A' : wsum RF f (@central RF 1 (@spacing RF g 0%nat)) = - wsum RF f (@central RF 1 (@spacing RF g 0%nat))).
    { rewrite A at 1. cbn. rr. }
    clear - A'. generalize dependent (wsum RF f (@central RF 1 (@spacing RF g 0%nat))). intros r H. change (r = 0). change (r = (- r)%R) in H. lra.
  - unfold sine_field, grid_point. cbn [nth]. change (orders ["x"] [("x", 1%nat)] O) with 1%nat.
    change (INR 0) with 0. change (INR 1) with 1. rewrite Rmult_0_l, Rplus_0_l, Rmult_1_l. apply sin_PI2.
Qed.
