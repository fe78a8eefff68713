(** Substitution of derivatives by decreasing order is simultaneous substitution. *)
From Coq Require Import List Arith ZArith Lia Field Ring Bool FunctionalExtensionality Permutation Sorted.
From Verif Require Import PyBase PyBaseFacts Scalars FieldFacts FornbergModel FDSpec FornbergProofs FDExprModel FDExprSpec FDExprProofs.
Import ListNotations.

Lemma mle_sum a : forall b, mle a b = true -> (list_sum a <= list_sum b)%nat.
Proof.
  induction a as [|p a IH]; intros [|q b]; cbn [mle]; intros H; try discriminate; [simpl; lia|].
  apply andb_true_iff in H. destruct H as [H1 H2]. apply Nat.leb_le in H1. apply IH in H2. simpl. lia.
Qed.
Lemma mle_sum_eq a : forall b, mle a b = true -> (list_sum b <= list_sum a)%nat -> a = b.
Proof.
  induction a as [|p a IH]; intros [|q b]; cbn [mle]; intros H L; try discriminate; auto.
  apply andb_true_iff in H. destruct H as [H1 H2]. apply Nat.leb_le in H1.
  pose proof (mle_sum _ _ H2). simpl in L. assert (p = q) by lia. subst. f_equal. apply IH; auto. lia.
Qed.

(** ** grouping and sorting *)
Lemma sort_desc_perm l : Permutation (sort_desc l) l.
Proof.
  induction l as [|n l IH]; simpl; auto.
  assert (G : forall n l, Permutation (insert_desc n l) (n :: l)).
  { clear. intros n l. induction l as [|m l IH]; simpl; auto. destruct (Nat.leb m n); auto.
    rewrite IH. apply perm_swap. }
  rewrite G. constructor; auto.
Qed.
Lemma sort_desc_sorted l : StronglySorted (fun a b => b <= a)%nat (sort_desc l).
Proof.
  assert (G : forall n l, StronglySorted (fun a b => b <= a)%nat l -> StronglySorted (fun a b => b <= a)%nat (insert_desc n l)).
  { clear. intros n l. induction l as [|m l IH]; simpl; intros S.
    - constructor; constructor.
    - inversion S as [|? ? S' F]; subst. destruct (Nat.leb_spec m n).
      + constructor; auto. constructor; auto. eapply Forall_impl; [|exact F]. simpl. intros; lia.
      + constructor; auto. apply Forall_forall. intros z Hz.
        assert (In z (n :: l)).
        { clear - Hz. revert Hz. induction l as [|q l IH]; simpl; auto. destruct (Nat.leb q n); simpl; auto.
          intros [->|Hz]; auto. destruct (IH Hz); auto. }
        destruct H0 as [<-|H0]; [lia|]. rewrite Forall_forall in F. apply F; auto. }
  induction l; simpl; [constructor|auto].
Qed.

Definition grp (k : nat) (l : list dkey) : list dkey := filter (fun d => Nat.eqb (total_order d) k) l.

Lemma by_order_snoc l a : by_order (l ++ [a]) =
  (let d := by_order l in let o := total_order a in
   let d := if dmem Nat.eq_dec o d then d else dset Nat.eq_dec o [] d in
   match dget Nat.eq_dec o d with Some g => dset Nat.eq_dec o (g ++ [a]) d | None => d end).
Proof. unfold by_order. rewrite fold_left_app. reflexivity. Qed.

Lemma by_order_spec l :
  NoDup (dkeys (by_order l)) /\
  forall k, dget Nat.eq_dec k (by_order l) =
            if in_dec Nat.eq_dec k (map total_order l) then Some (grp k l) else None.
Proof.
  induction l as [|a l [ND IH]] using rev_ind.
  - split; [constructor|]. reflexivity.
  - rewrite by_order_snoc. cbn zeta. set (o := total_order a).
    set (d := if dmem Nat.eq_dec o (by_order l) then by_order l else dset Nat.eq_dec o [] (by_order l)).
    assert (Hd : forall k, dget Nat.eq_dec k d =
       if Nat.eq_dec k o then Some (grp o l) else dget Nat.eq_dec k (by_order l)).
    { intros k. unfold d, dmem. rewrite (IH o). destruct (in_dec Nat.eq_dec o (map total_order l)) as [I|N].
      - destruct (Nat.eq_dec k o) as [->|]; auto. rewrite (IH o). destruct (in_dec _ _ _); [auto|contradiction].
      - rewrite dget_dset. destruct (Nat.eq_dec k o) as [->|]; auto. f_equal.
        symmetry. unfold grp. clear - N. induction l as [|b l IHl]; auto. simpl.
        destruct (Nat.eqb_spec (total_order b) o); [exfalso; apply N; left; auto|].
        apply IHl. intros H. apply N. right; auto. }
    assert (NDd : NoDup (dkeys d)).
    { unfold d. destruct (dmem Nat.eq_dec o (by_order l)); auto. apply NoDup_dset; auto. }
    rewrite (Hd o). destruct (Nat.eq_dec o o) as [_|]; [|congruence].
    split; [apply NoDup_dset; auto|].
    intros k. rewrite dget_dset, Hd. rewrite map_app. cbn [map]. unfold grp. rewrite filter_app. cbn [filter].
    fold o. destruct (Nat.eq_dec k o) as [->|Hk].
    + rewrite Nat.eqb_refl. destruct (in_dec _ _ _) as [_|N]; auto. exfalso. apply N. apply in_or_app. right; left; auto.
    + destruct (Nat.eqb_spec o k); [congruence|]. rewrite app_nil_r. rewrite IH.
      destruct (in_dec Nat.eq_dec k (map total_order l)) as [I|N], (in_dec Nat.eq_dec k (map total_order l ++ [o])) as [I'|N']; auto.
      * exfalso. apply N'. apply in_or_app; auto.
      * exfalso. apply in_app_or in I'. destruct I' as [I'|[I'|[]]]; [contradiction|congruence].
Qed.

Lemma flat_grp_sorted l ks : StronglySorted (fun a b => b <= a)%nat ks ->
  StronglySorted (fun a b => total_order b <= total_order a)%nat (flat_map (fun k => grp k l) ks).
Proof.
  induction 1 as [|k ks S IH F]; [constructor|]. cbn [flat_map].
  assert (G : forall g rest, (forall d, In d g -> total_order d = k) ->
     (forall d, In d rest -> total_order d <= k)%nat ->
     StronglySorted (fun a b => total_order b <= total_order a)%nat rest ->
     StronglySorted (fun a b => total_order b <= total_order a)%nat (g ++ rest)).
  { clear. induction g as [|d g IH]; intros rest Hg Hr S; auto. cbn [app]. constructor.
    - apply IH; auto. intros; apply Hg; right; auto.
    - apply Forall_forall. intros e He. apply in_app_or in He. rewrite (Hg d (or_introl eq_refl)).
      destruct He as [He|He]; [rewrite (Hg e (or_intror He)); lia|auto]. }
  apply G; auto.
  - intros d Hd. unfold grp in Hd. apply filter_In in Hd. apply Nat.eqb_eq. tauto.
  - intros d Hd. apply in_flat_map in Hd. destruct Hd as (k' & Hk' & Hd).
    unfold grp in Hd. apply filter_In in Hd. destruct Hd as [_ Hd]. apply Nat.eqb_eq in Hd.
    rewrite Forall_forall in F. apply F in Hk'. lia.
Qed.
Lemma flat_grp_NoDup l ks : NoDup l -> NoDup ks -> NoDup (flat_map (fun k => grp k l) ks).
Proof.
  intros Hl. induction 1 as [|k ks N ND IH]; [constructor|]. cbn [flat_map].
  assert (Hg : NoDup (grp k l)) by (apply NoDup_filter; auto).
  assert (Disj : forall d, In d (grp k l) -> ~ In d (flat_map (fun k => grp k l) ks)).
  { intros d Hd Hd'. apply in_flat_map in Hd'. destruct Hd' as (k' & Hk' & Hd').
    unfold grp in *. apply filter_In in Hd, Hd'. destruct Hd as [_ E1], Hd' as [_ E2].
    apply Nat.eqb_eq in E1, E2. apply N. congruence. }
  clear -Hg IH Disj. induction (grp k l) as [|d g IHg]; auto. cbn [app]. inversion Hg; subst.
  constructor.
  - intros H. apply in_app_or in H. destruct H; [contradiction|]. eapply Disj; [left; reflexivity|auto].
  - apply IHg; auto. intros; apply Disj; right; auto.
Qed.

Section Subs.
  Variable K : Fld.
  Add Field KFsu : (f_th K).
  Open Scope fld_scope.
  Variables (x dx : nat -> K).
  Hypothesis dx_neq0 : forall i, dx i <> 0.
  Variable ord : list datom -> list datom.
  Hypothesis ord_perm : forall l, Permutation (ord l) l.
  Variable ordE : list dkey -> list dkey.
  Hypothesis ordE_perm : forall l, Permutation (ordE l) l.

  (** the discretisation of one derivative *)
  Definition disc (d : dkey) : @expr K :=
    let '(u, s, a) := d in of_terms u (tensor K dx s (args_of a)).

  Lemma fd_of_disc d : fd_of x dx ord d = Ok (disc d).
  Proof.
    destruct d as [[u s] a]. unfold fd_of, disc. rewrite fdd_tensor; auto.
  Qed.

  Lemma subs_of_terms d new u l : subs d new (@of_terms K u l) = of_terms u l.
  Proof. induction l as [|t l IH]; simpl; [reflexivity|]. rewrite IH. reflexivity. Qed.

  Definition partial_repl (done : list dkey) (d : dkey) : @expr K :=
    if in_dec dkey_dec d done then disc d else let '(u, s, a) := d in Der u s a.

  Lemma subs_step done d e :
    has_DerOf e = false ->
    ~ In d done ->
    (forall b, In b (ders e) -> In b done \/ (total_order b <= total_order d)%nat) ->
    subs d (disc d) (simul (partial_repl done) e) = simul (partial_repl (done ++ [d])) e.
  Proof.
    intros Hno Hd. induction e as [c|u s|u s b|g e IH|a IHa b IHb|a IHa b IHb|op e IH]; intros H; simpl; auto.
    - unfold partial_repl.
      destruct (in_dec dkey_dec (u, s, b) done) as [I|N], (in_dec dkey_dec (u, s, b) (done ++ [d])) as [I'|N'].
      + unfold disc. apply subs_of_terms.
      + exfalso. apply N'. apply in_or_app; auto.
      + apply in_app_or in I'. destruct I' as [I'|[I'|[]]]; [contradiction|]. subst d.
        cbn [subs]. destruct (dkey_dec (u, s, b) (u, s, b)); [reflexivity|congruence].
      + cbn [subs]. destruct (dkey_dec d (u, s, b)) as [E|E].
        * exfalso. apply N'. apply in_or_app. right. left. auto.
        * destruct d as [[u' s'] a]. destruct (Nat.eqb_spec u u') as [->|]; auto.
          destruct (list_eq_dec Z.eq_dec s s') as [->|]; auto. cbn [andb].
          destruct (mle a b) eqn:M; auto. exfalso. apply E.
          destruct (H (u', s', b)) as [I|L]; [left; auto|contradiction|].
          rewrite (mle_sum_eq a b M L). reflexivity.
    - discriminate Hno.
    - simpl in Hno. apply orb_false_iff in Hno. destruct Hno as [Ha Hb].
      rewrite IHa, IHb; auto; intros c Hc; apply H; simpl; apply in_or_app; auto.
    - simpl in Hno. apply orb_false_iff in Hno. destruct Hno as [Ha Hb].
      rewrite IHa, IHb; auto; intros c Hc; apply H; simpl; apply in_or_app; auto.
    - rewrite IH; auto.
  Qed.

  Lemma simul_ext r r' (e : @expr K) : (forall d, In d (ders e) -> r d = r' d) -> simul r e = simul r' e.
  Proof.
    induction e; simpl; intros H; auto.
    - rewrite IHe; auto.
    - rewrite IHe1, IHe2; auto; intros; apply H; apply in_or_app; auto.
    - rewrite IHe1, IHe2; auto; intros; apply H; apply in_or_app; auto.
    - rewrite IHe; auto.
  Qed.
  Lemma simul_id (e : @expr K) : simul (fun d => let '(u, s, a) := d in Der u s a) e = e.
  Proof. induction e; simpl; congruence. Qed.

  Lemma subs_all_spec e : has_DerOf e = false -> forall todo done,
    NoDup (done ++ todo) ->
    StronglySorted (fun a b => total_order b <= total_order a)%nat todo ->
    (forall b, In b (ders e) -> In b (done ++ todo)) ->
    subs_all x dx ord (simul (partial_repl done) e) todo = Ok (simul disc e).
  Proof.
    intros Hno. induction todo as [|d todo IH]; intros done ND S H.
    - cbn. apply f_equal. apply simul_ext. intros b Hb. unfold partial_repl.
      destruct (in_dec dkey_dec b done) as [_|N]; auto. exfalso. apply N. apply H in Hb. rewrite app_nil_r in Hb. auto.
    - unfold subs_all. cbn [foldM]. rewrite fd_of_disc. cbn [bind].
      inversion S as [|? ? S' F]; subst.
      rewrite subs_step; auto.
      + apply IH; auto; rewrite <- app_assoc; auto.
      + intros I. apply NoDup_remove_2 in ND. apply ND. apply in_or_app; auto.
      + intros b Hb. apply H in Hb. apply in_app_or in Hb. destruct Hb as [Hb|[->|Hb]]; auto.
        right. rewrite Forall_forall in F. apply F; auto.
  Qed.

  Lemma foldM_groups (l : list dkey) ks e :
    (forall k, In k ks -> In k (map total_order l)) ->
    foldM (fun e o => g <- dgetE Nat.eq_dec o (by_order l) ;; subs_all x dx ord e g) e ks
    = subs_all x dx ord e (flat_map (fun k => grp k l) ks).
  Proof.
    revert e. induction ks as [|k ks IH]; intros e H; [reflexivity|].
    cbn [foldM flat_map]. unfold dgetE. rewrite (proj2 (by_order_spec l)).
    destruct (in_dec Nat.eq_dec k (map total_order l)) as [_|N]; [|exfalso; apply N, H; left; auto].
    cbn [bind]. unfold subs_all at 3. rewrite foldM_app. fold (subs_all x dx ord e (grp k l)).
    destruct (subs_all x dx ord e (grp k l)); cbn [bind]; auto. rewrite IH; auto.
    intros; apply H; right; auto.
  Qed.

  Theorem finite_difference_simul e : has_DerOf e = false ->
    finite_difference x dx ord ordE e = Ok (simul disc e).
  Proof.
    intros Hno. unfold finite_difference, finite_difference_with.
    set (l := ordE (nodup dkey_dec (ders e))).
    assert (NDl : NoDup l).
    { eapply Permutation_NoDup; [symmetry; apply ordE_perm|]. apply NoDup_nodup. }
    assert (Hl : forall b, In b (ders e) -> In b l).
    { intros b Hb. eapply Permutation_in; [symmetry; apply ordE_perm|]. apply nodup_In; auto. }
    destruct (by_order_spec l) as [NDk Hk].
    assert (Keys : forall k, In k (dkeys (by_order l)) <-> In k (map total_order l)).
    { intros k. split; intros I.
      - apply dget_key_ex with (eqd := Nat.eq_dec) in I. destruct I as [v I]. rewrite Hk in I.
        destruct (in_dec Nat.eq_dec k (map total_order l)); [auto|discriminate].
      - pose proof (Hk k) as E. destruct (in_dec Nat.eq_dec k (map total_order l)); [|contradiction].
        apply dget_Some_key in E. auto. }
    rewrite foldM_groups.
    2:{ intros k I. apply Keys. eapply Permutation_in; [apply sort_desc_perm|auto]. }
    set (ks := sort_desc (dkeys (by_order l))).
    pose proof (subs_all_spec e Hno (flat_map (fun k => grp k l) ks) []) as M.
    rewrite (simul_ext (partial_repl []) (fun d => let '(u, s, a) := d in Der u s a)), simul_id in M.
    2:{ intros d _. unfold partial_repl. destruct (in_dec dkey_dec d []) as [[]|_]. reflexivity. }
    apply M.
    - cbn [app]. apply flat_grp_NoDup; auto. eapply Permutation_NoDup; [symmetry; apply sort_desc_perm|auto].
    - apply flat_grp_sorted. apply sort_desc_sorted.
    - intros b Hb. cbn [app]. apply in_flat_map. exists (total_order b). split.
      + eapply Permutation_in; [symmetry; apply sort_desc_perm|]. apply Keys. apply in_map. auto.
      + unfold grp. apply filter_In. split; auto. apply Nat.eqb_refl.
  Qed.

  (** value of the discretised expression *)
  Lemma of_terms_value U un dv u (l : list (term K)) :
    (forall t, In t l -> snd (snd t) = []) ->
    value x dx U un dv (of_terms u l) = Some (terms_value x dx (U u) l).
  Proof.
    induction l as [|t l IH]; intros H; [reflexivity|]. cbn [of_terms fold_right value].
    fold (@of_terms K u l). rewrite IH by (intros; apply H; right; auto). reflexivity.
  Qed.

  Definition wf_der (d : dkey) : Prop := let '(u, s, a) := d in length s = length a.

  Lemma args_of_in a i o : In (i, o) (args_of a) -> (i < length a)%nat.
  Proof.
    unfold args_of. intros H. apply filter_In in H. destruct H as [H _]. apply in_combine_l in H.
    apply in_seq in H. lia.
  Qed.

  Lemma args_of_variables a : args_of a = variables 0 a.
  Proof.
    unfold args_of.
    enough (H : forall k, filter (fun p => negb (Nat.eqb (snd p) 0)) (combine (seq k (length a)) a) = variables k a) by apply H.
    induction a as [|o a IH]; intros k; [reflexivity|]. cbn [length seq combine filter snd variables].
    destruct o as [|o]; cbn [Nat.eqb negb]; rewrite IH; reflexivity.
  Qed.

  Theorem simul_value U un e :
    (forall d, In d (ders e) -> wf_der d) ->
    value x dx U un (fun _ _ _ => 0) (simul disc e)
    = value x dx U un (fun u s a => partials dx (variables 0 a) (U u) (displaced x dx s)) e.
  Proof.
    induction e as [c|u s|u s b|g e IH|a IHa b IHb|a IHa b IHb|op e IH]; intros H; auto.
    - cbn [simul disc value]. rewrite of_terms_value by (intros t Ht; eapply tensor_no_derivative; eauto).
      rewrite <- args_of_variables. f_equal. apply tensor_value. intros i o I. apply args_of_in in I.
      specialize (H (u, s, b) (or_introl eq_refl)). simpl in H. lia.
    - cbn [simul value]. rewrite IHa, IHb; auto; intros d Hd; apply H; simpl; apply in_or_app; auto.
    - cbn [simul value]. rewrite IHa, IHb; auto; intros d Hd; apply H; simpl; apply in_or_app; auto.
    - cbn [simul value]. rewrite IH; auto.
  Qed.
End Subs.

Section Final.
  Variable K : Fld.
  Open Scope fld_scope.
  Lemma ders_of_terms u (l : list (term K)) : ders (of_terms u l) = [].
  Proof. induction l; simpl; auto. Qed.
  Lemma noDerOf_of_terms u (l : list (term K)) : has_DerOf (of_terms u l) = false.
  Proof. induction l; simpl; auto. Qed.
  Lemma ders_simul_disc dx (e : @expr K) : ders (simul (disc K dx) e) = [].
  Proof.
    induction e as [c|u s|u s b|g e IH|a IHa b IHb|a IHa b IHb|op e IH]; auto.
    - cbn [simul disc]. apply ders_of_terms.
    - cbn [simul ders]. rewrite IHa, IHb. reflexivity.
    - cbn [simul ders]. rewrite IHa, IHb. reflexivity.
  Qed.
  Lemma noDerOf_simul_disc dx (e : @expr K) : has_DerOf e = false -> has_DerOf (simul (disc K dx) e) = false.
  Proof.
    induction e as [c|u s|u s b|g e IH|a IHa b IHb|a IHa b IHb|op e IH]; intros H; auto.
    - cbn [simul disc]. apply noDerOf_of_terms.
    - cbn [simul has_DerOf] in *. apply orb_false_iff in H. destruct H. rewrite IHa, IHb; auto.
    - cbn [simul has_DerOf] in *. apply orb_false_iff in H. destruct H. rewrite IHa, IHb; auto.
  Qed.
End Final.

(** symmetry of the weights *)
Section Sym.
  Variable K : Fld.
  Add Field KFsy : (f_th K).
  Open Scope fld_scope.
  Lemma central_rev m (h : K) :
    rev (central m h) = map (fun kw => ((- fst kw)%Z, sgn m * snd kw)) (central m h).
  Proof.
    unfold central. set (st := if Nat.even m then h else (1+1) * h).
    set (g := fun j : nat => ((if Nat.even m then Z.of_nat j - Z.of_nat m / 2 else 2 * Z.of_nat j - Z.of_nat m)%Z,
                    sgn (m - j) * fnat (binom m j) / fpow st m)).
    rewrite <- map_rev, map_map.
    assert (R : rev (seq 0 (S m)) = map (fun j => (m - j)%nat) (seq 0 (S m))).
    { clear. apply nth_ext with (d := O) (d' := (m - 0)%nat).
      - rewrite rev_length, map_length. reflexivity.
      - intros n Hn. rewrite rev_length, seq_length in Hn. rewrite rev_nth by (rewrite seq_length; lia).
        rewrite (map_nth (fun j => (m - j)%nat)). rewrite seq_length, !seq_nth by lia. lia. }
    rewrite R, map_map. apply map_ext_in. intros j Hj. apply in_seq in Hj. unfold g. cbn [fst snd]. f_equal.
    - destruct (Nat.even m) eqn:E; [|lia].
      apply Nat.even_spec in E. destruct E as [p ->].
      rewrite Nat2Z.inj_mul. change (Z.of_nat 2) with 2%Z. rewrite (Z.mul_comm 2), Z.div_mul by lia. lia.
    - rewrite binom_sym by lia. replace (m - (m - j))%nat with j by lia.
      assert (S1 : @sgn K j = sgn m * sgn (m - j)).
      { replace m with (j + (m - j))%nat at 1 by lia. rewrite sgn_add.
        transitivity (sgn j * (sgn (m - j) * @sgn K (m - j))); [rewrite sgn_sq; ring|ring]. }
      rewrite S1. rewrite !(Fdiv_def (f_th K)). ring.
  Qed.
End Sym.
