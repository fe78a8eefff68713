(** The right-hand sides of the systems contain no time derivative of a parameter. *)
From Coq Require Import List Arith ZArith QArith Bool String Permutation Lia.
From Verif Require Import PyBase PyBaseFacts PartialOrderModel PartialOrderSpec PartialOrderProofs TreeModel TreeSpec TreeProofs
  PKFModel PKFSpec PKFAlg PKFAtoms PKFClosure PKFProofs PKFInv TreeMore TreeProps PKFShape PKFMore PKFWords.
Import ListNotations.
Close Scope Q_scope.
Close Scope Z_scope.
Open Scope nat_scope.
Open Scope string_scope.
Open Scope list_scope.

Definition is_ext (f : fn) : bool := match f with FExt _ _ => true | _ => false end.

(** *** the monomials of results *)
Definition pmall (R : mono -> Prop) (p : poly) : Prop := forall c m, In (c, m) p -> R m.
Section Mono.
  Variable R : mono -> Prop.
  Lemma pins_m t p : R (snd t) -> pmall R p -> pmall R (pins t p).
  Proof.
    intros Ht Hp. induction p as [|u r IH]; cbn [pins].
    - destruct (Qeq_bool (fst t) 0); [exact Hp|]. intros c m [->|[]]. exact Ht.
    - destruct (Qeq_bool (fst t) 0); [exact Hp|].
      assert (Hr : pmall R r) by (intros c m H; apply (Hp c m); right; exact H).
      assert (Hu : R (snd u)) by (apply (Hp (fst u)); left; destruct u; reflexivity).
      destruct (list_eq_dec atom_eq_dec (snd t) (snd u)).
      + destruct (Qeq_bool (Qred (fst t + fst u)) 0); [exact Hr|]. intros c m [H|H]; [injection H as <- <-; exact Hu|exact (Hr c m H)].
      + destruct (mono_lt (snd u) (snd t)).
        * intros c m [->|H]; [exact Hu|exact (IH Hr c m H)].
        * intros c m [->|H]; [exact Ht|exact (Hp c m H)].
  Qed.
  Lemma padd_m p q : pmall R p -> pmall R q -> pmall R (padd p q).
  Proof.
    intros Hp Hq. unfold padd. induction p as [|t p IH]; cbn [fold_right]; [exact Hq|].
    apply pins_m; [apply (Hp (fst t)); left; destruct t; reflexivity|apply IH; intros c m H; apply (Hp c m); right; exact H].
  Qed.
  Lemma pscale_m c p : pmall R p -> pmall R (pscale c p).
  Proof.
    intros Hp. unfold pscale. induction p as [|t p IH]; cbn [fold_right]; [exact Hp|].
    apply pins_m; [apply (Hp (fst t)); left; destruct t; reflexivity|apply IH; intros c' m H; apply (Hp c' m); right; exact H].
  Qed.
  Lemma psum_m l : (forall p, In p l -> pmall R p) -> pmall R (psum l).
  Proof.
    unfold psum. induction l as [|p l IH]; intros H; cbn [fold_right]; [intros c m []|].
    apply padd_m; [apply H; left; reflexivity|apply IH; intros; apply H; right; assumption].
  Qed.
End Mono.
Lemma pmulm_m (R R' : mono -> Prop) c m p : (forall m', R m' -> R' (mmul m m')) -> pmall R p -> pmall R' (pmulm c m p).
Proof.
  intros H Hp. unfold pmulm. induction p as [|t p IH]; cbn [fold_right]; [intros c' m' []|].
  apply pins_m; [apply H, (Hp (fst t)); left; destruct t; reflexivity|apply IH; intros c' m' H'; apply (Hp c' m'); right; exact H'].
Qed.
Lemma pmul_m (R1 R2 R : mono -> Prop) p q : (forall m m', R1 m -> R2 m' -> R (mmul m m')) -> pmall R1 p -> pmall R2 q -> pmall R (pmul p q).
Proof.
  intros H Hp Hq. unfold pmul. induction p as [|t p IH]; cbn [fold_right]; [intros c' m' []|].
  apply padd_m; [|apply IH; intros c' m' H'; apply (Hp c' m'); right; exact H'].
  apply (pmulm_m R2); [|exact Hq]. intros m' Hm'. apply H; [|exact Hm']. apply (Hp (fst t)). left. destruct t; reflexivity.
Qed.
Lemma mmul_perm a b : (forall x, In x a -> inverse x = None) -> Permutation (mmul a b) (a ++ b).
Proof.
  unfold mmul. induction a as [|x a IH]; intros H; [reflexivity|]. cbn [fold_right app]. unfold mins.
  rewrite (H x (or_introl eq_refl)), insert_perm. constructor. apply IH. intros; apply H; right; assumption.
Qed.

(** *** products of jets of random functions *)
Notation jatoms l := (map (fun j => AJet (fst j) (snd j)) l).
Notation jets_random l := (forall j, In j l -> is_random (fst j) = true).
Lemma pjet_random f w : is_random f = true -> pjet f w = [(1%Q, [AJet f w])].
Proof. destruct f; try discriminate; reflexivity. Qed.
Lemma jets_product l : jets_random l -> pmall (fun m => Permutation m (jatoms l)) (pprod (map (fun j => pjet (fst j) (snd j)) l)).
Proof.
  unfold pprod. induction l as [|j l IH]; intros Hl; cbn [map fold_right]; [intros c m [H|[]]; injection H as <- <-; reflexivity|].
  apply (pmul_m (fun m => m = [AJet (fst j) (snd j)]) (fun m => Permutation m (jatoms l))).
  - intros m m' -> Hm'. rewrite mmul_perm; [|intros x [<-|[]]; reflexivity]. cbn [app]. constructor. exact Hm'.
  - rewrite pjet_random by (apply Hl; left; reflexivity). intros c m [H|[]]. injection H as <- <-. reflexivity.
  - apply IH. intros; apply Hl; right; assumption.
Qed.
Lemma random_jets_perm m l : jets_random l -> Permutation m (jatoms l) -> Permutation (random_jets m) l /\ det_part m = [].
Proof.
  intros Hl HP. split.
  - unfold random_jets. rewrite (Permutation_flat_map _ HP). clear HP m. induction l as [|[f w] l IH]; [reflexivity|]. cbn [map flat_map fst snd].
    pose proof (Hl (f, w) (or_introl eq_refl)) as Hf. cbn [fst] in Hf. rewrite Hf. cbn [app]. constructor. apply IH. intros; apply Hl; right; assumption.
  - unfold det_part. assert (G : forall a, In a m -> exists j, In j l /\ a = AJet (fst j) (snd j)).
    { intros a Ha. apply (Permutation_in _ HP), in_map_iff in Ha. destruct Ha as (j & <- & Hj). exists j. auto. }
    clear HP. induction m as [|a m IH]; [reflexivity|]. cbn [filter].
    destruct (G a (or_introl eq_refl)) as (j & Hj & ->). rewrite (Hl j Hj). cbn [negb]. apply IH. intros b Hb. apply G. right; exact Hb.
Qed.
(** the average of a product of at least two random jets *)
Lemma expect_many (R : list jet -> Prop) p : pmall (fun m => exists l, R l /\ jets_random l /\ Permutation m (jatoms l)) p ->
  (forall l, R l -> 2 <= List.length l) ->
  pmall (fun m => exists l, m = [AExp [] l] /\ exists l', R l' /\ Permutation l l') (expect p).
Proof.
  intros Hp HR. unfold expect. apply psum_m. intros q Hq. apply in_map_iff in Hq. destruct Hq as ([c m] & <- & Hm). cbn [fst snd].
  destruct (Hp c m Hm) as (l & Hl & Hrn & HP). destruct (random_jets_perm m l Hrn HP) as [H1 ->].
  apply (pmulm_m (fun m' => m' = [AExp [] (random_jets m)])).
  - intros m' ->. exists (random_jets m). split; [reflexivity|]. exists l. auto.
  - pose proof (HR l Hl) as H2. rewrite <- (Permutation_length H1) in H2. destruct (random_jets m) as [|[f w] [|j r]]; cbn in H2; try lia.
    cbn [expect_jets]. intros c' m' [H|[]]. injection H as <- <-. reflexivity.
Qed.
(** the time derivative of a product of two random jets, averaged *)
Lemma pair_trend f g w w' : is_random f = true -> is_random g = true ->
  pmall (fun m => exists l, m = [AExp [] l] /\
      (Permutation l [(f, winsert "t" w); (g, w')] \/ Permutation l [(f, w); (g, winsert "t" w')]))
    (expect (pderiv "t" (pmul (pjet f w) (pjet g w')))).
Proof.
  intros Hf Hg.
  set (R := fun l => Permutation l [(f, winsert "t" w); (g, w')] \/ Permutation l [(f, w); (g, winsert "t" w')]).
  assert (Hlen : forall l, R l -> 2 <= List.length l) by (intros l [H|H]; rewrite (Permutation_length H); cbn; lia).
  assert (Hrn : forall l, R l -> jets_random l).
  { intros l [H|H] j Hj; apply (Permutation_in _ H) in Hj; destruct Hj as [<-|[<-|[]]]; assumption. }
  assert (G : pmall (fun m => exists l, R l /\ jets_random l /\ Permutation m (jatoms l)) (pderiv "t" (pmul (pjet f w) (pjet g w')))).
  { rewrite !pjet_random by assumption.
    assert (HM : exists m, pmul [(1%Q, [AJet f w])] [(1%Q, [AJet g w'])] = [(1%Q, m)] /\ (m = [AJet f w; AJet g w'] \/ m = [AJet g w'; AJet f w])).
    { unfold pmul, pmulm, mmul. cbn [fold_right fst snd]. unfold mins. cbn [inverse insert_atom].
      destruct (atom_lt (AJet g w') (AJet f w)); eexists; split; [reflexivity|auto|reflexivity|auto]. }
    destruct HM as (m & -> & HM). unfold pderiv. cbn [fold_right fst snd]. apply padd_m; [apply pscale_m|intros c m' []].
    assert (D : forall a b, jets_random [a; b] -> pmall (fun m => Permutation m (jatoms [(fst a, winsert "t" (snd a)); b])
                   \/ Permutation m (jatoms [a; (fst b, winsert "t" (snd b))])) (dmono "t" (jatoms [a; b]))).
    { intros [f1 w1] [f2 w2] Hr. pose proof (Hr (f1, w1) (or_introl eq_refl)) as H1. pose proof (Hr (f2, w2) (or_intror (or_introl eq_refl))) as H2.
      cbn [map fst snd] in *. cbn [dmono datom]. rewrite !pjet_random by assumption. apply padd_m.
      - apply (pmulm_m (fun m' => m' = [AJet f1 (winsert "t" w1)])).
        + intros m' ->. left. rewrite mmul_perm by (intros x [<-|[]]; reflexivity). constructor.
        + intros c m' [H|[]]. injection H as <- <-. reflexivity.
      - apply (pmulm_m (fun m' => m' = [AJet f2 (winsert "t" w2)])).
        + intros m' ->. right. rewrite mmul_perm by (intros x [<-|[]]; reflexivity). reflexivity.
        + apply padd_m; [|intros c m' []]. apply (pmulm_m (fun m' => m' = [AJet f2 (winsert "t" w2)])); [intros m' ->; reflexivity|].
          intros c m' [H|[]]. injection H as <- <-. reflexivity. }
    assert (Hr1 : jets_random [(f, w); (g, w')]) by (intros j [<-|[<-|[]]]; assumption).
    assert (Hr2 : jets_random [(g, w'); (f, w)]) by (intros j [<-|[<-|[]]]; assumption).
    destruct HM as [->| ->].
    - intros c m' H. destruct (D (f, w) (g, w') Hr1 c m' H) as [HP|HP].
      + exists [(f, winsert "t" w); (g, w')]. split; [left; reflexivity|]. split; [apply Hrn; left; reflexivity|exact HP].
      + exists [(f, w); (g, winsert "t" w')]. split; [right; reflexivity|]. split; [apply Hrn; right; reflexivity|exact HP].
    - intros c m' H. destruct (D (g, w') (f, w) Hr2 c m' H) as [HP|HP].
      + exists [(g, winsert "t" w'); (f, w)]. split; [right; constructor|]. split; [apply Hrn; right; constructor|exact HP].
      + exists [(g, w'); (f, winsert "t" w)]. split; [left; constructor|]. split; [apply Hrn; left; constructor|exact HP]. }
  intros c m Hm. destruct (expect_many R _ G Hlen c m Hm) as (l & -> & l' & HR' & HP). exists l. split; [reflexivity|].
  destruct HR' as [HR'|HR']; [left|right]; rewrite HP; exact HR'.
Qed.

Section Time.
  Variable coords : list string.
  Hypothesis Ht : ~ In "t" coords.
  Notation good := (spatial coords).
  Lemma good_t w : good w -> ~ In "t" w.
  Proof. intros [_ H] K. apply Ht, H, K. Qed.

  (** [K] tells which functions may be differentiated once by time *)
  Definition timed (K : fn -> Prop) (a : atom) : Prop :=
    match a with
    | AJet f w => is_ext f = true \/ good w \/ (K f /\ exists w0, good w0 /\ w = winsert "t" w0)
    | AExp w l => good w /\ jets_random l
        /\ ((forall j, In j l -> good (snd j))
            \/ (exists f w0 r, Permutation l ((f, winsert "t" w0) :: r) /\ K f /\ good w0 /\ r <> [] /\ forall j, In j r -> good (snd j)))
    | _ => True
    end.
  Notation none := (fun _ : fn => False).
  Notation T0 := (pall (timed none)).
  Lemma timed_mono (K K' : fn -> Prop) a : (forall f, K f -> K' f) -> timed K a -> timed K' a.
  Proof.
    intros H. destruct a; cbn; auto.
    - intros [H1|[H1|[H1 H2]]]; auto.
    - intros (H1 & H2 & [H3|(f & w0 & r & H3 & H4 & H5)]); (split; [exact H1|]; split; [exact H2|]); [left; exact H3|right; exists f, w0, r; auto].
  Qed.
  Lemma T0_any (K : fn -> Prop) p : T0 p -> pall (timed K) p.
  Proof. apply pall_weaken. intros a. apply timed_mono. intros f []. Qed.
  Lemma timed_jet K f w : timed K (AJet f w) -> pall (timed K) (pjet f w).
  Proof. intros H. apply pjet_all; [exact H|]. intros i _. exact I. Qed.
  Lemma timed_good K f w : good w -> pall (timed K) (pjet f w).
  Proof. intros H. apply timed_jet. right. left. exact H. Qed.
  Lemma timed_fn K f : pall (timed K) (pfn f).
  Proof. apply timed_good, spatial_nil. Qed.

  Lemma timed_datom K c a : In c coords -> timed K a -> pall (timed K) (datom c a).
  Proof.
    intros Hc. destruct a as [f w|w l|k| |i|i]; cbn [datom]; intros H.
    - apply timed_jet. destruct H as [H|[H|(H & w0 & H0 & ->)]]; [left; exact H|right; left; apply spatial_insert; assumption|].
      right. right. split; [exact H|]. exists (winsert c w0). split; [apply spatial_insert; assumption|]. apply winsert_comm, H0.
    - apply pall_atom. destruct H as (H1 & H2). split; [apply spatial_insert; assumption|exact H2].
    - apply pall_nil.
    - apply pall_nil.
    - apply pmulm_all; [intros b [<-|[]]; exact I|apply timed_good, spatial_one, Hc].
    - apply pmulm_all; [intros b [<-|[<-|[<-|[]]]]; exact I|apply timed_good, spatial_one, Hc].
  Qed.
  Lemma timed_derivs' K w p : incl w coords -> pall (timed K) p -> pall (timed K) (pderivs w p).
  Proof.
    intros Hw Hp. unfold pderivs. induction w as [|c w IH]; cbn [fold_right]; [exact Hp|].
    assert (Hc : In c coords) by (apply Hw; left; reflexivity).
    assert (G : forall q, pall (timed K) q -> pall (timed K) (pderiv c q)).
    { intros q Hq. unfold pderiv. induction q as [|t q IHq]; cbn [fold_right]; [apply pall_nil|].
      apply padd_all; [apply pscale_all|apply IHq, (pall_tail _ _ _ Hq)]. pose proof (pall_head _ _ _ Hq) as Hm. revert Hm. generalize (snd t). intros m.
      induction m as [|a r IHm]; intros Hm; cbn [dmono]; [apply pall_nil|].
      assert (Ha : timed K a) by (apply Hm; left; reflexivity).
      assert (Hr : mall (timed K) r) by (intros b Hb; apply Hm; right; exact Hb).
      apply padd_all; apply pmulm_all; auto; [apply timed_datom; assumption|]. apply mall_cons; [exact Ha|apply mall_nil]. }
    apply G, IH. intros d Hd. apply Hw. right. exact Hd.
  Qed.

  Lemma timed_derivs K w p : good w -> pall (timed K) p -> pall (timed K) (pderivs w p).
  Proof. intros [_ H]. apply timed_derivs', H. Qed.

  (** the time derivative of an expression without averages *)
  Lemma timed_trend (K : fn -> Prop) p : pall (fun a => match a with
      | AJet f w => good w /\ K f | ASig i | AIsig i => K (FVar i) | AExp _ _ => False | _ => True end) p ->
    pall (timed K) (pderiv "t" p).
  Proof.
    set (P := fun a => _). intros Hp. assert (HPT : forall a, P a -> timed K a).
    { intros [f w|w l|k| |i|i]; cbn; tauto. }
    assert (HD : forall a, P a -> pall (timed K) (datom "t" a)).
    { intros [f w|w l|k| |i|i]; cbn [P datom]; intros H.
      - apply timed_jet. right. right. split; [apply H|]. exists w. split; [apply H|reflexivity].
      - destruct H.
      - apply pall_nil.
      - apply pall_nil.
      - apply pmulm_all; [intros b [<-|[]]; exact I|]. apply timed_jet. right. right. split; [exact H|]. exists []. split; [apply spatial_nil|reflexivity].
      - apply pmulm_all; [intros b [<-|[<-|[<-|[]]]]; exact I|]. apply timed_jet. right. right. split; [exact H|]. exists []. split; [apply spatial_nil|reflexivity]. }
    unfold pderiv. induction p as [|t q IHq]; cbn [fold_right]; [apply pall_nil|].
    apply padd_all; [apply pscale_all|apply IHq, (pall_tail _ _ _ Hp)]. pose proof (pall_head _ _ _ Hp) as Hm. revert Hm. generalize (snd t). intros m.
    induction m as [|a r IHm]; intros Hm; cbn [dmono]; [apply pall_nil|].
    assert (Ha : P a) by (apply Hm; left; reflexivity).
    assert (Hr : mall P r) by (intros b Hb; apply Hm; right; exact Hb).
    apply padd_all; apply pmulm_all; auto. - intros b Hb. apply HPT, Hr, Hb. - apply mall_cons; [apply HPT, Ha|apply mall_nil].
  Qed.

  Lemma random_not_ext f : is_random f = true -> is_ext f = false.
  Proof. destruct f; try discriminate; reflexivity. Qed.
  Lemma T0_expect p : T0 p -> T0 (expect p).
  Proof.
    intros Hp. apply psum_all. intros q Hq. apply in_map_iff in Hq. destruct Hq as ([c m] & <- & Hm). cbn [fst snd].
    specialize (Hp c m Hm). apply pmulm_all; [intros a Ha; apply filter_In in Ha; apply Hp, Ha|].
    assert (HR : forall j, In j (random_jets m) -> is_random (fst j) = true /\ good (snd j)).
    { intros j Hj. unfold random_jets in Hj. apply in_flat_map in Hj. destruct Hj as (a & Ha & Hj).
      destruct a; try destruct Hj. destruct (is_random f) eqn:Hr; [|destruct Hj]. destruct Hj as [<-|[]]. split; [exact Hr|].
      specialize (Hp _ Ha). cbn [timed snd] in *. rewrite (random_not_ext _ Hr) in Hp. destruct Hp as [Hp|[Hp|[[] _]]]; [discriminate|exact Hp]. }
    destruct (random_jets m) as [|[f w] [|j l]] eqn:HJ; cbn [expect_jets].
    - apply pone_all.
    - destruct (HR (f, w) (or_introl eq_refl)) as [H1 H2]. apply pall_atom. split; [apply spatial_group, H2|]. split; [intros j [<-|[]]; exact H1|].
      left. intros j [<-|[]]. apply spatial_nil.
    - apply pall_atom. split; [apply spatial_nil|]. split; [intros k Hk; apply HR, Hk|]. left. intros k Hk. apply HR, Hk.
  Qed.

  Lemma T0_jets l : jets_random l -> (forall j, In j l -> good (snd j)) -> T0 (expect (pprod (map (fun j => pjet (fst j) (snd j)) l))).
  Proof.
    intros H1 H2. apply T0_expect, pprod_all. intros q Hq. apply in_map_iff in Hq. destruct Hq as (j & <- & Hj). apply timed_good, H2, Hj.
  Qed.

  Lemma sub_trend_timed (K : fn -> Prop) f v p : is_ext f = false -> T0 v -> pall (timed K) p ->
    pall (timed (fun g => K g /\ g <> f)) (sub_trend f v p).
  Proof.
    intros Hf Hv Hp. unfold sub_trend, psubst. apply (replace_all (timed K)); [exact Hp|].
    set (g := fun (f' : fn) (w : word) => _).
    assert (Hgood : forall h w, good w -> g h w = pjet h w).
    { intros h w Hw. unfold g. destruct (fn_eq_dec h f); [|reflexivity]. rewrite wremove_none by (apply good_t, Hw). reflexivity. }
    assert (Htrend : forall w0, good w0 -> g f (winsert "t" w0) = pderivs w0 v).
    { intros w0 H0. unfold g. destruct (fn_eq_dec f f); [|congruence]. rewrite wremove_winsert by (apply good_t, H0). reflexivity. }
    intros [h w|w l|k| |i|i] H; cbn [asubst].
    - destruct H as [H|[H|(H & w0 & H0 & ->)]].
      + unfold g. destruct (fn_eq_dec h f) as [->|]; [congruence|]. apply timed_jet. left. exact H.
      + rewrite Hgood by exact H. apply timed_good, H.
      + destruct (fn_eq_dec h f) as [->|Hne]; [rewrite Htrend by exact H0; apply timed_derivs; [exact H0|apply T0_any, Hv]|].
        unfold g. destruct (fn_eq_dec h f); [contradiction|]. apply timed_jet. right. right. split; [auto|exists w0; auto].
    - destruct H as (H1 & H2 & [H3|(h & w0 & r & HP & Hh & H0 & Hr & H3)]); (apply timed_derivs; [exact H1|]).
      + apply T0_any. replace (map (fun j => g (fst j) (snd j)) l) with (map (fun j => pjet (fst j) (snd j)) l); [apply T0_jets; assumption|].
        apply map_ext_in. intros j Hj. symmetry. apply Hgood, H3, Hj.
      + destruct (fn_eq_dec h f) as [->|Hne].
        * apply T0_any, T0_expect, pprod_all. intros q Hq. apply in_map_iff in Hq. destruct Hq as (j & <- & Hj).
          apply (Permutation_in _ HP) in Hj. destruct Hj as [<-|Hj]; cbn [fst snd].
          -- rewrite Htrend by exact H0. apply timed_derivs; assumption.
          -- rewrite Hgood by (apply H3, Hj). apply timed_good, H3, Hj.
        * replace (map (fun j => g (fst j) (snd j)) l) with (map (fun j => pjet (fst j) (snd j)) l).
          2:{ apply map_ext_in. intros j Hj. symmetry. apply (Permutation_in _ HP) in Hj. destruct Hj as [<-|Hj]; cbn [fst snd].
              - unfold g. destruct (fn_eq_dec h f); [contradiction|reflexivity].
              - apply Hgood, H3, Hj. }
          assert (HE : pmall (fun m => exists l', m = [AExp [] l'] /\ exists l'', l'' = l /\ Permutation l' l'') (expect (pprod (map (fun j => pjet (fst j) (snd j)) l)))).
          { apply (expect_many (fun l' => l' = l)).
            - intros c m Hm. exists l. split; [reflexivity|]. split; [exact H2|]. exact (jets_product l H2 c m Hm).
            - intros l' ->. rewrite (Permutation_length HP). destruct r; [congruence|]. cbn. lia. }
          intros c m Hm a Ha. destruct (HE c m Hm) as (l' & -> & l'' & -> & HP'). destruct Ha as [<-|[]].
          split; [apply spatial_nil|]. split; [intros j Hj; apply H2, (Permutation_in _ HP'), Hj|]. right. exists h, w0, r.
          split; [transitivity l; assumption|]. auto.
    - apply patom_all; exact I.
    - apply patom_all; exact I.
    - apply patom_all; exact I.
    - apply patom_all; exact I.
  Qed.
  Lemma sub_trends_timed (K : fn -> Prop) d : forall p, (forall f v, In (f, v) d -> is_ext f = false /\ T0 v) -> pall (timed K) p ->
    pall (timed (fun g => K g /\ ~ In g (map fst d))) (sub_trends d p).
  Proof.
    unfold sub_trends. revert K. induction d as [|[f v] d IH]; intros K p Hd Hp; cbn [fold_left].
    - eapply pall_weaken; [|exact Hp]. intros a. apply timed_mono. intros g Hg. split; [exact Hg|intros []].
    - destruct (Hd f v (or_introl eq_refl)) as [H1 H2]. eapply pall_weaken; [|apply (IH (fun g => K g /\ g <> f)); [intros; apply Hd; right; assumption|]].
      + intros a. apply timed_mono. intros g [[Hg Hn] Hi]. split; [exact Hg|]. intros [Hc|Hc]; [cbn in Hc; congruence|exact (Hi Hc)].
      + apply sub_trend_timed; assumption.
  Qed.
  (** all functions with a time derivative have a trend *)
  Lemma sub_trends_T0 (K : fn -> Prop) d p : (forall f v, In (f, v) d -> is_ext f = false /\ T0 v) -> (forall f, K f -> In f (map fst d)) ->
    pall (timed K) p -> T0 (sub_trends d p).
  Proof.
    intros H1 H2 Hp. eapply pall_weaken; [|exact (sub_trends_timed K d p H1 Hp)]. intros a. apply timed_mono. intros f [Hf Hn]. exact (Hn (H2 f Hf)).
  Qed.

  Lemma sub_fn_T0 f v p : is_ext f = false -> T0 v -> T0 p -> T0 (sub_fn f v p).
  Proof.
    intros Hf Hv Hp. unfold sub_fn, psubst. apply (replace_all (timed none)); [exact Hp|].
    set (g := fun (f' : fn) (w : word) => _).
    assert (Hg : forall h w, good w -> T0 (g h w)).
    { intros h w Hw. unfold g. destruct (fn_eq_dec h f); [apply timed_derivs; assumption|apply timed_good, Hw]. }
    intros [h w|w l|k| |i|i] H; cbn [asubst]; try (apply patom_all; exact I).
    - destruct H as [H|[H|[[] _]]]; [|apply Hg, H]. unfold g. destruct (fn_eq_dec h f) as [->|]; [congruence|]. apply timed_jet. left. exact H.
    - destruct H as (H1 & H2 & [H3|(h & w0 & r & _ & [] & _)]). apply timed_derivs; [exact H1|].
      apply T0_expect, pprod_all. intros q Hq. apply in_map_iff in Hq. destruct Hq as (j & <- & Hj). apply Hg, H3, Hj.
  Qed.
  Lemma sub_fns_T0 d : forall p, (forall f v, In (f, v) d -> is_ext f = false /\ T0 v) -> T0 p -> T0 (sub_fns d p).
  Proof.
    unfold sub_fns. induction d as [|[f v] d IH]; intros p Hd Hp; cbn [fold_left]; [exact Hp|].
    destruct (Hd f v (or_introl eq_refl)). apply IH; [intros; apply Hd; right; assumption|]. apply sub_fn_T0; assumption.
  Qed.
  Lemma sub_exps_T0 d : forall p, (forall l v, In (l, v) d -> T0 v) -> T0 p -> T0 (sub_exps d p).
  Proof.
    unfold sub_exps. induction d as [|[l v] d IH]; intros p Hd Hp; cbn [fold_left]; [exact Hp|].
    apply IH; [intros l' v' H; apply (Hd l' v'); right; exact H|]. cbn [fst snd]. unfold sub_exp.
    apply (replace_all (timed none)); [exact Hp|]. intros a Ha. destruct a; try (apply patom_all; exact Ha).
    destruct (jets_eq_dec l0 l); [|apply patom_all; exact Ha]. apply timed_derivs; [apply Ha|apply (Hd l v); left; reflexivity].
  Qed.
End Time.
