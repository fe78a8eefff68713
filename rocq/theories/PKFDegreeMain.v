(** The averages of the systems of SymbolicPKF: two factors, orders bounded by those of the dynamics (C96). *)
From Coq Require Import List Arith ZArith QArith Bool String Permutation Sorted Lia.
From Verif Require Import PyBase PyBaseFacts PartialOrderModel PartialOrderSpec TreeModel TreeSpec TreeProofs TreeMore TreeProps
  PKFModel PKFSpec PKFAlg PKFAtoms PKFClosure PKFProofs PKFInv PKFShape PKFMore PKFMain PKFWords PKFTime PKFTimeSpec PKFExplicit PKFExplicitMain
  PKFCanon PKFNormal PKFReduced PKFDegree PKFOrderSpec.
Import ListNotations.
Close Scope Q_scope.
Close Scope Z_scope.
Open Scope nat_scope.
Open Scope string_scope.
Open Scope list_scope.

(** *** number of random factors minus number of small parameters *)
Definition excess (m : mono) : Z := (Z.of_nat (List.length (random_jets m)) - Z.of_nat (small m))%Z.
Notation exceeds z := (pmall (fun m => excess m = z)).
Lemma excess_app a b : excess (a ++ b) = (excess a + excess b)%Z.
Proof. unfold excess. rewrite random_app, app_length, small_app. lia. Qed.
Lemma excess_mmul a b : excess (mmul a b) = (excess a + excess b)%Z.
Proof. unfold excess. rewrite (Permutation_length (random_mmul a b)), app_length, small_mmul. lia. Qed.
Lemma excess_mul x y p q : exceeds x p -> exceeds y q -> exceeds (x + y)%Z (pmul p q).
Proof. apply pmul_m. intros m m' <- <-. apply excess_mmul. Qed.
Lemma excess_mulm x c m p : exceeds x p -> exceeds (excess m + x)%Z (pmulm c m p).
Proof. apply pmulm_m. intros m' <-. apply excess_mmul. Qed.
Lemma excess_pjet f w : exceeds (excess [AJet f w]) (pjet f w).
Proof.
  assert (D : exceeds (excess [AJet f w]) [(1%Q, [AJet f w])]) by (intros c m [H|[]]; injection H as <- <-; reflexivity).
  destruct f; try exact D; unfold pjet.
  - destruct w; [|exact D]. intros c m [H|[]]. injection H as <- <-. reflexivity.
  - destruct (forallb _ w); [exact D|intros c m []].
Qed.
Lemma excess_datom c a : exceeds (excess [a]) (datom c a).
Proof.
  destruct a as [f w|w l|j| |i|i]; cbn [datom]; try (intros q m []; fail).
  - replace (excess [AJet f w]) with (excess [AJet f (winsert c w)]); [apply excess_pjet|]. unfold excess, random_jets, small. cbn. destruct (is_random f); reflexivity.
  - intros q m [H|[]]. injection H as <- <-. reflexivity.
  - exact (excess_mulm _ _ [AIsig i] _ (excess_pjet (FVar i) [c])).
  - exact (excess_mulm _ _ [AIsig i; AIsig i; AIsig i] _ (excess_pjet (FVar i) [c])).
Qed.
Lemma excess_dmono c m : exceeds (excess m) (dmono c m).
Proof.
  induction m as [|a r IH]; cbn [dmono]; [intros q m []|]. change (a :: r) with ([a] ++ r). rewrite excess_app. apply padd_m.
  - rewrite Z.add_comm. apply excess_mulm, excess_datom. - apply excess_mulm, IH.
Qed.
Lemma excess_deriv c z p : exceeds z p -> exceeds z (pderiv c p).
Proof.
  intros Hp. unfold pderiv. induction p as [|[q m] p IH]; cbn [fold_right]; [intros q m []|].
  apply padd_m; [apply pscale_m|apply IH; intros x y H; apply (Hp x y); right; exact H]. cbn [snd].
  rewrite <- (Hp q m (or_introl eq_refl)). apply excess_dmono.
Qed.
Lemma excess_derivs w z p : exceeds z p -> exceeds z (pderivs w p).
Proof. intros Hp. unfold pderivs. induction w as [|c w IH]; cbn [fold_right]; [exact Hp|apply excess_deriv, IH]. Qed.
Lemma excess_replace z (h : atom -> poly) p : exceeds z p -> (forall c m a, In (c, m) p -> In a m -> exceeds (excess [a]) (h a)) ->
  exceeds z (psum (map (fun t => pscale (fst t) (pprod (map h (snd t)))) p)).
Proof.
  intros Hp Hh. apply psum_m. intros q Hq. apply in_map_iff in Hq. destruct Hq as ([x m] & <- & Hm). cbn [fst snd]. apply pscale_m.
  rewrite <- (Hp x m Hm). assert (G : forall a, In a m -> exceeds (excess [a]) (h a)) by (intros a Ha; exact (Hh x m a Hm Ha)).
  clear - G. unfold pprod. induction m as [|a m IH]; cbn [map fold_right].
  - intros c m [H|[]]. injection H as <- <-. reflexivity.
  - change (a :: m) with ([a] ++ m). rewrite excess_app. apply excess_mul; [apply G; left; reflexivity|apply IH; intros; apply G; right; assumption].
Qed.

Section Bounds.
  Variables (enum : list mi -> list mi) (enumD : tdict -> tdict) (enumC : edict -> edict)
    (enumF : list (fn * poly) -> list (fn * poly)) (enumU : list fn -> list fn).
  Variables (coords : list string) (eqs : list poly) (k : nat).
  Hypothesis HR : rearrangements enum enumD enumC enumF enumU.
  Hypothesis Hcoords : NoDup coords.
  Hypothesis Hne : coords <> [].
  Hypothesis Ht : ~ In "t" coords.
  Hypothesis HU : user_system eqs.
  Hypothesis HS : Forall (spatial_poly coords) eqs.
  Hypothesis HK : Forall (order_at_most k) eqs.
  Let Henum := proj1 HR.
  Let HenumD := proj1 (proj2 HR).
  Let HenumC := proj1 (proj2 (proj2 HR)).
  Let HenumF := proj1 (proj2 (proj2 (proj2 HR))).
  Let HenumU := proj2 (proj2 (proj2 (proj2 HR))).
  Notation n := (List.length eqs).
  Notation within c N A := (pmall (rnd k c N A)).
  Notation nothing := (fun _ : list jet => False).

  Lemma wt_spatial w : incl w coords -> wt k w = List.length w.
  Proof.
    intros H. induction w as [|c w IH]; [reflexivity|]. cbn [wt List.length]. rewrite IH by (intros d Hd; apply H; right; exact Hd).
    destruct (string_dec c "t") as [->|]; [|reflexivity]. destruct Ht. apply H. left. reflexivity.
  Qed.
  Lemma jwt_spatial l : (forall j, In j l -> spatial coords (snd j)) -> jwt k l = total_order l.
  Proof.
    intros H. unfold jwt, total_order. induction l as [|j l IH]; [reflexivity|]. cbn [fold_right]. rewrite IH by (intros; apply H; right; assumption).
    rewrite wt_spatial; [reflexivity|]. apply (H j (or_introl eq_refl)).
  Qed.

  (** *** the Reynolds equations *)
  Definition low (a : atom) : Prop :=
    match a with
    | AJet (FField _) w | AJet (FErr _) w => wt k w <= k
    | AJet (FEps _) _ | AExp _ _ => False
    | _ => True
    end.
  Lemma low_jet f w : low (AJet f w) -> pall low (pjet f w).
  Proof. intros H. apply pjet_all; [exact H|]. intros i _. exact I. Qed.
  (** the derivatives of mean + small * error *)
  Definition pieces (i : nat) (N : nat) : poly -> Prop :=
    pall (fun a => match a with AJet g w => (g = FMean i \/ g = FErr i) /\ wt k w <= N | ASmall => True | _ => False end).
  Lemma pieces_deriv i N c p : pieces i N p -> pieces i (N + wt k [c]) (pderiv c p).
  Proof.
    intros Hp. unfold pderiv. induction p as [|t p IH]; cbn [fold_right]; [apply pall_nil|].
    apply padd_all; [apply pscale_all|apply IH, (pall_tail _ _ _ Hp)]. pose proof (pall_head _ _ _ Hp) as Hm. revert Hm. generalize (snd t). clear.
    intros m. induction m as [|a r IH]; intros Hm; cbn [dmono]; [apply pall_nil|].
    assert (W : mall (fun a => match a with AJet g w => (g = FMean i \/ g = FErr i) /\ wt k w <= N + wt k [c] | ASmall => True | _ => False end) (a :: r)).
    { intros b Hb. specialize (Hm b Hb). destruct b; auto. destruct Hm as [H1 H2]. split; [exact H1|lia]. }
    apply padd_all; apply pmulm_all.
    - intros b Hb. apply W. right. exact Hb.
    - specialize (Hm a (or_introl eq_refl)). destruct a; try destruct Hm; cbn [datom]; [|apply pall_nil].
      apply pjet_all; [split; [assumption|rewrite wt_winsert; lia]|]. intros j ->. destruct H; discriminate.
    - intros b [<-|[]]. apply W. left. reflexivity.
    - apply IH. intros b Hb. apply Hm. right. exact Hb.
  Qed.
  Lemma pieces_derivs i w : pieces i (wt k w) (pderivs w (padd (pfn (FMean i)) (pmulm 1 [ASmall] (pfn (FErr i))))).
  Proof.
    unfold pderivs. induction w as [|c w IH]; cbn [fold_right].
    - apply padd_all; [apply pall_atom; split; [left; reflexivity|apply le_n]|].
      apply pmulm_all; [intros a [<-|[]]; exact I|apply pall_atom; split; [right; reflexivity|apply le_n]].
    - replace (wt k (c :: w)) with (wt k w + wt k [c]) by (cbn [wt]; lia). apply pieces_deriv, IH.
  Qed.
  Lemma value_excess i : exceeds 0%Z (padd (pfn (FMean i)) (pmulm 1 [ASmall] (pfn (FErr i)))).
  Proof.
    apply padd_m; [exact (excess_pjet (FMean i) [])|]. exact (excess_mulm _ 1 [ASmall] _ (excess_pjet (FErr i) [])).
  Qed.
  Lemma one_sub i p : pall low p -> exceeds 0%Z p ->
    let q := sub_fn (FField i) (padd (pfn (FMean i)) (pmulm 1 [ASmall] (pfn (FErr i)))) p in pall low q /\ exceeds 0%Z q.
  Proof.
    intros H1 H2. unfold sub_fn, psubst. split.
    - apply (replace_all low); [exact H1|]. intros a Ha. destruct a as [f w|w l| | | |]; cbn [asubst]; try (apply patom_all; exact Ha); [|destruct Ha].
      destruct (fn_eq_dec f (FField i)) as [->|]; [|apply low_jet, Ha]. eapply pall_weaken; [|apply pieces_derivs].
      intros a Ha'. destruct a; try exact I; try (destruct Ha'; fail). destruct Ha' as [[->| ->] H]; [exact I|cbn in Ha |- *; lia].
    - apply excess_replace; [exact H2|]. intros c m a Hm Ha. pose proof (H1 c m Hm a Ha) as L.
      assert (D : exceeds (excess [a]) [(1%Q, [a])]) by (intros q m' [H|[]]; injection H as <- <-; reflexivity).
      destruct a as [f w|w l| | | |]; cbn [asubst]; try exact D; [|destruct L].
      destruct (fn_eq_dec f (FField i)) as [->|]; [|apply excess_pjet]. change (excess [AJet (FField i) w]) with 0%Z. apply excess_derivs, value_excess.
  Qed.
  Lemma subs_reynolds_low p : pall low p -> exceeds 0%Z p -> pall low (subs_reynolds enumF eqs p) /\ exceeds 0%Z (subs_reynolds enumF eqs p).
  Proof.
    unfold subs_reynolds, sub_fns. set (d := map _ (fields eqs)).
    assert (Hd : forall f v, In (f, v) (enumF d) -> exists i, f = FField i /\ v = padd (pfn (FMean i)) (pmulm 1 [ASmall] (pfn (FErr i)))).
    { intros f v Hin. apply (Permutation_in _ (HenumF d)) in Hin. unfold d in Hin. apply in_map_iff in Hin. destruct Hin as (i & E & _). apply pair_inj in E.
      destruct E as [<- <-]. exists i. auto. }
    revert p Hd. generalize (enumF d). clear d. induction l as [|[f v] l IH]; intros p Hd H1 H2; cbn [fold_left]; [auto|].
    destruct (Hd f v (or_introl eq_refl)) as (i & -> & ->). destruct (one_sub i p H1 H2). apply IH; auto. intros f v H'. apply Hd. right. exact H'.
  Qed.
  Lemma user_low i : i < n -> pall low (nth i eqs []) /\ exceeds 0%Z (nth i eqs []).
  Proof.
    intros Hi. pose proof (nth_In eqs [] Hi) as Hin. rewrite Forall_forall in HS, HK. pose proof (HS _ Hin) as S1. pose proof (HK _ Hin) as K1.
    assert (U : forall c m a, In (c, m) (nth i eqs []) -> In a m -> user_atom n a) by (intros c m a; exact (HU _ c m a Hin)).
    split.
    - intros c m Hm a Ha. pose proof (U c m a Hm Ha) as Hu. pose proof (S1 c m a Hm Ha) as Hs. destruct a as [f w|w l|j| |j|j]; cbn in Hu |- *; auto.
      destruct f; try (exfalso; exact Hu); auto. destruct Hs as [(x & y & Hs)|[_ Hs]]; [discriminate|]. rewrite wt_spatial by exact Hs. exact (K1 c m _ w Hm Ha).
    - intros c m Hm. specialize (U c m). assert (G : forall a, In a m -> user_atom n a) by (intros a; exact (U a Hm)). clear - G.
      induction m as [|a m IH]; [reflexivity|]. change (a :: m) with ([a] ++ m). rewrite excess_app, IH by (intros; apply G; right; assumption).
      specialize (G a (or_introl eq_refl)). destruct a as [f w|w l|j| |j|j]; try destruct G; try reflexivity. destruct f; try destruct G; reflexivity.
  Qed.
  Lemma small_random m : random_jets (filter (fun a => if atom_eq_dec a ASmall then false else true) m) = random_jets m.
  Proof.
    unfold random_jets. induction m as [|a m IH]; [reflexivity|]. cbn [filter]. destruct (atom_eq_dec a ASmall) as [->|]; cbn [flat_map]; rewrite IH; reflexivity.
  Qed.
  Lemma random_low m : mall low m -> jwt k (random_jets m) <= List.length (random_jets m) * k.
  Proof.
    intros H. assert (G : forall j, In j (random_jets m) -> wt k (snd j) <= k).
    { intros j Hj. unfold random_jets in Hj. apply in_flat_map in Hj. destruct Hj as (a & Ha & Hj). specialize (H a Ha). destruct a; try destruct Hj.
      destruct f; cbn in Hj; try (destruct Hj; fail); destruct Hj as [<-|[]]; [exact H|destruct H]. }
    unfold jwt. induction (random_jets m) as [|j l IH]; [apply le_n|]. cbn [fold_right List.length Nat.mul].
    apply Nat.add_le_mono; [apply G; left; reflexivity|apply IH; intros; apply G; right; assumption].
  Qed.
  Lemma small_one_within c p : pall low p -> (forall x m, In (x, m) p -> List.length (random_jets m) <= c) -> within c (c * k) nothing (small_one p).
  Proof.
    intros H1 H2. unfold small_one. apply psum_m. intros q Hq. apply in_map_iff in Hq. destruct Hq as ([x m] & <- & Hm). cbn [fst snd].
    apply pins_m; [|intros y m' []]. cbn [snd]. unfold rnd. rewrite small_random. pose proof (H2 x m Hm) as HL. pose proof (random_low m (H1 x m Hm)) as HW. split; [exact HL|].
    split; [nia|]. intros w l H. apply filter_In in H. exact (H1 x m Hm _ (proj1 H)).
  Qed.
  Lemma second_within q : In q (second_order_reynolds enumF eqs) -> within 2 (2 * k) nothing (snd q).
  Proof.
    unfold second_order_reynolds. intros Hq. apply in_map_iff in Hq. destruct Hq as (i & <- & Hi). apply fields_in in Hi. cbn [snd reynolds].
    destruct (user_low i Hi) as [U1 U2]. destruct (subs_reynolds_low _ U1 U2) as [L1 L2]. apply small_one_within; [apply filter_all, L1|].
    intros x m Hm. apply filter_In in Hm. destruct Hm as [Hm Hd]. specialize (L2 x m Hm). unfold excess in L2. cbn [snd] in Hd. apply Nat.ltb_lt in Hd.
    change (small_degree m) with (small m) in Hd. lia.
  Qed.
  Lemma first_within q : In q (first_order_reynolds enumF eqs) -> within 1 k nothing (snd q).
  Proof.
    unfold first_order_reynolds. intros Hq. apply in_map_iff in Hq. destruct Hq as (i & <- & Hi). apply fields_in in Hi. cbn [snd reynolds].
    destruct (user_low i Hi) as [U1 U2]. destruct (subs_reynolds_low _ U1 U2) as [L1 L2].
    apply (within_weaken k 1 (1 * k) 1 k nothing nothing); [lia|lia|auto|]. apply small_one_within; [apply filter_all, filter_all, L1|].
    intros x m Hm. apply filter_In in Hm. destruct Hm as [Hm Hd']. apply filter_In in Hm. destruct Hm as [Hm Hd]. specialize (L2 x m Hm). unfold excess in L2.
    cbn [snd] in Hd, Hd'. apply Nat.ltb_lt in Hd. apply negb_true_iff, Nat.eqb_neq in Hd'. change (small_degree m) with (small m) in Hd, Hd'. lia.
  Qed.

  (** *** the systems *)
  Lemma within_of_avs A p : avs A p -> pall (fun a => match a with AJet f _ => is_random f = false | _ => True end) p -> within 0 0 A p.
  Proof.
    intros H1 H2 c m Hm. assert (E : random_jets m = []).
    { specialize (H2 c m Hm). clear - H2. induction m as [|a m IH]; [reflexivity|]. unfold random_jets in *. cbn [flat_map]. rewrite IH by (intros b Hb; apply H2; right; exact Hb).
      specialize (H2 a (or_introl eq_refl)). destruct a; try reflexivity. rewrite H2. reflexivity. }
    unfold rnd. rewrite E. split; [apply le_n|]. split; [apply le_n|]. intros w l Hl. exact (H1 c m Hm _ Hl).
  Qed.
  Lemma det_closed (Fo Fi : fn -> Prop) S p : pall (occ (detf Fo) Fi S) p -> pall (fun a => match a with AJet f _ => is_random f = false | _ => True end) p.
  Proof. apply pall_weaken. intros [] H; try exact I. apply H. Qed.

  Lemma error_within es : error_system enum enumC enumF coords eqs = Ok es -> forall q, In q es -> within 1 k nothing (snd q).
  Proof.
    unfold error_system, tl_expectation_system. destruct (internal_closure enum coords eqs) as [cl|] eqn:Hcl; cbn [bind]; [|discriminate].
    intros H q Hq. apply Ok_inj in H. subst es. apply in_map_iff in Hq. destruct Hq as ([q1 q2] & <- & Hq). cbn [fst snd].
    pose proof (in_combine_l _ _ _ _ Hq) as H1. pose proof (in_combine_r _ _ _ _ Hq) as H2. apply in_map_iff in H2. destruct H2 as (q3 & <- & H2).
    cbn [on_eq snd]. unfold psub. apply padd_m; [apply first_within, H1|]. apply pscale_m.
    pose proof (first_within q3 H2) as W3.
    assert (HC : exists i, i < n /\ snd q3 = small_one (square_zero (snd (reynolds enumF eqs i)))).
    { unfold first_order_reynolds in H2. apply in_map_iff in H2. destruct H2 as (i & <- & Hi). apply fields_in in Hi. exists i. auto. }
    destruct HC as (i & Hi & Eq). 
    assert (Gen : pall (occ (parameter no_tensor coords n) (parameter no_tensor coords n) (sigf eqs)) (snd q3)).
    { rewrite Eq. apply small_one_all, filter_all. eapply reynolds_general; auto. }
    assert (Can : canon (snd q3)) by (rewrite Eq; apply canon_small, canon_filter; eapply reynolds_canon; auto).
    set (e := expect (snd q3)).
    assert (A1 : avs (fun l => l <> [] /\ List.length l <= 1) e).
    { apply (within_avs k 0 0). apply (within_expect k 1 k _ nothing); [exact W3|intros l []|auto]. }
    assert (A2 : avs (fun l => forall j, In j l -> is_random (fst j) = true /\ parameter no_tensor coords n (fst j)) e).
    { apply avs_iff. intros l (c & m & w & Hm & Ha). pose proof (expect_mixed no_tensor coords eqs (snd q3) Gen c m Hm _ Ha) as M. exact M. }
    pose proof (canon_sorted e (canon_expect _ Can)) as A3.
    assert (A4 : avs (internal_key coords n) e).
    { apply avs_iff. intros l Hl. rewrite avs_iff in A1, A2. destruct (A1 l Hl) as [B1 B2]. destruct (A3 l Hl) as (_ & _ & B3). specialize (A2 l Hl).
      destruct l as [|j [|j' l]]; [congruence| |cbn in B2; lia]. specialize (B3 j eq_refl). destruct (A2 j (or_introl eq_refl)) as [C1 C2]. destruct j as [f w]. cbn in *. subst w.
      left. destruct f; try discriminate; exists i0; auto. }
    assert (A5 : avs nothing (sub_exps (enumC cl) e)).
    { eapply avs_weaken; [|eapply internal_avs; [exact Henum|exact HenumC|exact Hcoords|exact Hne|exact Hcl|exact A4]]. cbn. intros l [X Y]. exact (Y X). }
    apply (within_weaken k 0 0 1 k nothing nothing); [lia|lia|auto|]. apply within_of_avs; [exact A5|].
    apply (det_closed (parameter no_tensor coords n) (parameter no_tensor coords n) (sigf eqs)).
    destruct (internal_ok enum no_tensor coords eqs) as (cl' & Hcl' & Hent & _); auto. rewrite Hcl in Hcl'. apply Ok_inj in Hcl'. subst cl'.
    apply occ_sub_exps; [exact (co_okd no_tensor coords eqs)| |exact (expect_mixed no_tensor coords eqs (snd q3) Gen)].
    intros l v Hin. apply closed_mixed. apply (Permutation_in _ (HenumC cl)) in Hin. apply (Hent (l, v) Hin).
  Qed.

  (** the rules of the tree keep the order *)
  Lemma jwt_key i a b : jwt k (tree_key coords i (a, b)) = List.length (word_of coords a) + List.length (word_of coords b).
  Proof.
    unfold tree_key. cbn [fst snd]. rewrite (jwt_perm k _ _ (jkey2_perm (FEps i) (FEps i) _ _ eq_refl eq_refl)). unfold jwt. cbn [fold_right snd].
    rewrite !wt_spatial by (apply spatial_word_of). lia.
  Qed.
  Lemma index_length d o : multi_index (List.length coords) (Z.of_nat d) o -> List.length (word_of coords o) = d.
  Proof. intros (H1 & H2 & H3). pose proof (word_of_length coords o H1 H2). lia. Qed.
  Lemma zero_length : List.length (word_of coords (zero_index (List.length coords))) = 0.
  Proof. apply index_length. change (Z.of_nat 0) with 0%Z. apply zero_index_spec. Qed.
  Lemma ekey_length i a b : jwt k (tree_key coords i (ekey a b)) = List.length (word_of coords a) + List.length (word_of coords b).
  Proof. destruct (ekey_cases a b) as [->| ->]; rewrite jwt_key; lia. Qed.
  Lemma key_pair i a b : List.length (tree_key coords i (a, b)) = 2.
  Proof. unfold tree_key. rewrite (Permutation_length (jkey2_perm (FEps i) (FEps i) _ _ eq_refl eq_refl)). reflexivity. Qed.
  Lemma tree_kept cl i d t N p : internal_closure enum coords eqs = Ok cl -> closed_tree enum enumD enumC coords cl i d = Ok t ->
    avs (pairs k N) p -> avs (pairs k N) (sub_exps (enumC t) p).
  Proof.
    intros Hcl Htr. apply avs_kept. intros l v Hin Hl. apply (Permutation_in _ (HenumC t)) in Hin. unfold closed_tree in Htr.
    destruct (fst (tree_call enum enumD true coords tree_init (Some d))) as [rules|] eqn:HRl; cbn [bind] in Htr; [|discriminate]. apply Ok_inj in Htr. subst t.
    apply in_map_iff in Hin. destruct Hin as ([key e] & E & Hin). apply pair_inj in E. destruct E as [<- <-]. cbn [fst snd] in *.
    apply avs_kept.
    { intros l v H' _. apply (Permutation_in _ (HenumC cl)) in H'. refine (avs_weaken nothing _ _ (fun _ F => match F with end) _). eapply internal_free; [exact Hcl|exact H']. }
    destruct (rules_entry enum enumD true coords Henum HenumD Hcoords Hne [] (Some d) rules HRl) as [HE _].
    destruct (HE _ Hin) as (j & _ & (a & b & x & y & Ek & [Ha _] & [Hb _] & Hxy) & _ & Hnf). cbn [fst snd] in *. subst key.
    destruct Hl as [_ Hl]. rewrite ekey_length, (index_length x a Ha), (index_length y b Hb) in Hl.
    unfold tree_value. apply psum_all. intros q Hq. apply in_map_iff in Hq. destruct Hq as ([[c ds] kk] & <- & Hterm).
    apply pscale_all, avs_derivs, pall_atom. cbn [av]. destruct (Hnf eq_refl c ds kk Hterm) as (g & z & -> & Hg & Hz).
    split; [destruct (ekey (zero_index (List.length coords)) g); rewrite key_pair; apply le_n|]. rewrite ekey_length, zero_length, (index_length z g Hg). lia.
  Qed.
  Lemma apply_kept N p q : avs (pairs k N) p -> apply_internal_closure enum enumD enumC enumU coords eqs p = Ok q -> avs (pairs k N) q.
  Proof.
    intros Hp. unfold apply_internal_closure. destruct (internal_closure enum coords eqs) as [cl|] eqn:Hcl; cbn [bind]; [|discriminate].
    destruct (existsb _ _); [discriminate|]. set (step := fun (p0 : poly) (f : fn) => _).
    destruct (foldM step p (enumU (dkeys (check_univariate p)))) as [p'|] eqn:HF; cbn [bind]; [|discriminate].
    intros H. apply Ok_inj in H. subst q. apply avs_kept.
    { intros l v H' _. apply (Permutation_in _ (HenumC cl)) in H'. refine (avs_weaken nothing _ _ (fun _ F => match F with end) _). eapply internal_free; [exact Hcl|exact H']. }
    refine (foldM_inv (fun p => avs (pairs k N) p) _ _ _ _ _ Hp HF). intros s f s' _ Hs Hstep. unfold step in Hstep.
    destruct (field_of eqs f) as [i|]; [|discriminate]. destruct (dgetE fn_eq_dec f (check_univariate p)) as [ns|]; cbn [bind] in Hstep; [|discriminate].
    destruct (closed_tree enum enumD enumC coords cl i (fold_right Nat.max 0 ns)) as [t|] eqn:Htr; cbn [bind] in Hstep; [|discriminate].
    apply Ok_inj in Hstep. subst s'. exact (tree_kept cl i _ t N s Hcl Htr Hs).
  Qed.
  Lemma pairs_le N N' l : N <= N' -> pairs k N l -> pairs k N' l.
  Proof. intros H [H1 H2]. split; lia. Qed.
  Lemma subs_error_within c m N p : within c m (pairs k N) p -> within c m (pairs k N) (sub_fns (enumF (subs_error eqs)) p).
  Proof.
    apply within_sub_fns; [apply pairs_steady|]. intros f v Hin. apply (Permutation_in _ (HenumF _)) in Hin. apply in_map_iff in Hin. destruct Hin as (i & E & _).
    apply pair_inj in E. destruct E as [<- <-]. apply (within_mulm k 0 0 1 0); [apply rnd_det; intros a [<-|[]]; exact I|]. exact (within_jet k (FEps i) [] _).
  Qed.
  (** replacing trends *)
  Lemma trends_within s fs d A : steady k A -> map fst s = map time_derivative fs ->
    (forall f q, In f fs -> In q s -> within (fc f) (fc f * k) A (snd q)) -> trend_dict s = Ok d ->
    forall c N p, within c N A p -> within c N A (sub_trends (enumF d) p).
  Proof.
    intros HA H1 H2 Hd c N p. rewrite (trend_dict_ok s fs H1) in Hd. apply Ok_inj in Hd. subst d. apply within_sub_trends; [exact HA|].
    intros f v Hin. apply (Permutation_in _ (HenumF _)) in Hin. pose proof (in_combine_l _ _ _ _ Hin) as Hf. apply in_combine_r, in_map_iff in Hin.
    destruct Hin as (q & <- & Hq). exact (H2 f q Hf Hq).
  Qed.
  Lemma pair_within es d i j : error_system enum enumC enumF coords eqs = Ok es -> trend_dict es = Ok d ->
    within 0 0 (pairs k k) (sub_fns (enumF (subs_error eqs)) (sub_trends (enumF d) (expect (pderiv "t" (pmul (pfn (FErr i)) (pfn (FErr j))))))).
  Proof.
    intros Hes Hd. apply subs_error_within. destruct (error_ok enum enumC enumF no_tensor coords eqs) as (es' & Hes' & Hl & _); auto.
    rewrite Hes' in Hes. apply Ok_inj in Hes. subst es'.
    apply (trends_within es (map FErr (fields eqs)) d _ (pairs_steady k k) Hl); [|exact Hd|].
    - intros f q Hf Hq. apply in_map_iff in Hf. destruct Hf as (m & <- & _). cbn [fc is_random].
      apply (within_weaken k 1 k _ _ nothing); [apply le_n|cbn; lia|intros l []|exact (error_within es Hes' q Hq)].
    - exact (within_pair k (FErr i) (FErr j) [] [] eq_refl eq_refl).
  Qed.
  Lemma variance_pairs s : variance_system enum enumD enumC enumF enumU coords eqs = Ok s -> forall q, In q s -> avs (pairs k k) (snd q).
  Proof.
    unfold variance_system. destruct (error_system enum enumC enumF coords eqs) as [es|] eqn:Hes; cbn [bind]; [|discriminate].
    destruct (trend_dict es) as [d|] eqn:Hd; cbn [bind]; [|discriminate]. intros H q Hq.
    destruct (mapM_in _ _ _ _ H Hq) as (i & Hi & Hv). unfold variance_equation in Hv.
    destruct (apply_internal_closure _ _ _ _ _ _ _) as [r|] eqn:Hr; cbn [bind] in Hv; [|discriminate]. apply Ok_inj in Hv. subst q. cbn [snd].
    refine (apply_kept k _ r _ Hr). apply (within_avs k 0 0). exact (pair_within es d i i Hes Hd).
  Qed.
  Lemma covariance_pairs s : cross_covariance_system enum enumD enumC enumF enumU coords eqs = Ok s -> forall q, In q (optional s) -> avs (pairs k k) (snd q).
  Proof.
    unfold cross_covariance_system. destruct (Nat.eqb _ _); [intros H q Hq; apply Ok_inj in H; subst s; destruct Hq|].
    destruct (error_system enum enumC enumF coords eqs) as [es|] eqn:Hes; cbn [bind]; [|discriminate].
    destruct (trend_dict es) as [d|] eqn:Hd; cbn [bind]; [|discriminate].
    destruct (mapM _ _) as [l|] eqn:Hm; cbn [bind]; [|discriminate]. intros H q Hq. apply Ok_inj in H. subst s. cbn [optional] in Hq.
    destruct (mapM_in _ _ _ _ Hm Hq) as ([i j] & Hij & Hv). unfold covariance_equation in Hv.
    destruct (internal_closure enum coords eqs) as [cl|]; cbn [bind] in Hv; [|discriminate].
    destruct (dgetE _ _ _) as [V|]; cbn [bind] in Hv; [|discriminate].
    destruct (apply_internal_closure _ _ _ _ _ _ _) as [r|] eqn:Hr; cbn [bind] in Hv; [|discriminate]. apply Ok_inj in Hv. subst q. cbn [snd].
    refine (apply_kept k _ r _ Hr). apply (within_avs k 0 0). exact (pair_within es d i j Hes Hd).
  Qed.
  Lemma epsilon_within s : epsilon_system enum enumD enumC enumF enumU coords eqs = Ok s -> forall q, In q s -> within 1 k (pairs k k) (snd q).
  Proof.
    unfold epsilon_system. destruct (error_ok enum enumC enumF no_tensor coords eqs) as (es & Hes & Hle & _); auto.
    destruct (variance_ok enum enumD enumC enumF enumU no_tensor coords eqs) as (vs & Hvs & Hlv & Hcv); auto.
    rewrite Hes. cbn [bind]. destruct (trend_dict es) as [d|] eqn:Hd; cbn [bind]; [|discriminate].
    rewrite Hvs. cbn [bind]. destruct (trend_dict vs) as [dv|] eqn:Hdv; cbn [bind]; [|discriminate].
    intros H q Hq. apply Ok_inj in H. subst s. apply in_map_iff in Hq. destruct Hq as (i & <- & Hi).
    unfold epsilon_equation. cbn [snd]. apply subs_error_within.
    apply (trends_within vs (map FVar (fields eqs)) dv _ (pairs_steady k k) Hlv); [|exact Hdv|].
    { intros f q Hf Hq. apply in_map_iff in Hf. destruct Hf as (m & <- & _). cbn [fc is_random Nat.mul].
      apply within_of_avs; [exact (variance_pairs vs Hvs q Hq)|]. exact (det_closed _ _ _ _ (Hcv q Hq)). }
    apply (trends_within es (map FErr (fields eqs)) d _ (pairs_steady k k) Hle); [|exact Hd|].
    { intros f q Hf Hq. apply in_map_iff in Hf. destruct Hf as (m & <- & _). cbn [fc is_random].
      apply (within_weaken k 1 k _ _ nothing); [apply le_n|cbn; lia|intros l []|exact (error_within es Hes q Hq)]. }
    assert (W : within (0 + 1) (0 + 0) (pairs k k) (pmulm 1 [AIsig i] (pfn (FErr i)))).
    { apply within_mulm; [apply rnd_det; intros a [<-|[]]; exact I|exact (within_jet k (FErr i) [] _)]. }
    apply (within_deriv k "t") in W. replace k with (0 + 0 + wt k ["t"]) at 2; [exact W|]. cbn [wt]. destruct (string_dec "t" "t"); [lia|congruence].
  Qed.
  Lemma metric_pairs s : metric_system enum enumD enumC enumF enumU coords eqs = Ok s -> forall q, In q s -> avs (pairs k (k + 2)) (snd q).
  Proof.
    unfold metric_system. destruct (epsilon_ok enum enumD enumC enumF enumU no_tensor coords eqs) as (es & Hes & Hl & _); auto.
    rewrite Hes. cbn [bind]. destruct (trend_dict es) as [d|] eqn:Hd; cbn [bind]; [|discriminate]. intros H q Hq.
    destruct (mapM_in _ _ _ _ H Hq) as ([i [a b]] & Hi & Hv). apply indices_in in Hi. unfold metric_equation in Hv.
    destruct (apply_internal_closure _ _ _ _ _ _ _) as [r|] eqn:Hr; cbn [bind] in Hv; [|discriminate]. apply Ok_inj in Hv. subst q. cbn [snd].
    destruct Hi as (Hi & Hab & Hb). refine (apply_kept (k + 2) _ r _ Hr). apply (within_avs k 0 0).
    apply (trends_within es (map FEps (fields eqs)) d _ (pairs_steady k (k + 2)) Hl); [|exact Hd|].
    - intros f q Hf Hq'. apply in_map_iff in Hf. destruct Hf as (m & <- & _). cbn [fc is_random].
      apply (within_weaken k 1 k _ _ (pairs k k)); [apply le_n|cbn; lia|intros l; apply pairs_le; lia|exact (epsilon_within es Hes q Hq')].
    - pose proof (within_pair k (FEps i) (FEps i) [coord coords a] [coord coords b] eq_refl eq_refl) as W.
      assert (L : forall c, c < List.length coords -> wt k [coord coords c] = 1) by (intros c Hc; apply wt_spatial; intros x [<-|[]]; apply nth_In, Hc).
      rewrite !L in W by lia. replace (k + 2) with (1 + 1 + k) by lia. exact W.
  Qed.
  Lemma expectation_pairs s : expectation_system enum enumC enumF coords eqs = Ok s -> forall q, In q s -> avs (pairs k (2 * k)) (snd q).
  Proof.
    unfold expectation_system. destruct (internal_closure enum coords eqs) as [cl|] eqn:Hcl; cbn [bind]; [|discriminate].
    intros H q Hq. apply Ok_inj in H. subst s. apply in_map_iff in Hq. destruct Hq as (q0 & <- & Hq). cbn [on_eq snd]. apply avs_kept.
    { intros l v H' _. apply (Permutation_in _ (HenumC cl)) in H'. refine (avs_weaken nothing _ _ (fun _ F => match F with end) _). eapply internal_free; [exact Hcl|exact H']. }
    apply (within_avs k 0 0), subs_error_within. apply (within_expect k 2 (2 * k) _ nothing); [exact (second_within q0 Hq)|intros l []|intros l _ X Y; split; assumption].
  Qed.

  (** *** what the averages are *)
  Lemma averages_spatial s : spatial_system coords s -> forall q l, In q s -> averaged_in l (snd q) -> forall j, In j l -> spatial coords (snd j).
  Proof.
    intros Hs q l Hq (c & m & w & Hm & Ha) j Hj. apply spatial_word_iff. exact (proj2 (proj2 (Hs q Hq c m _ Hm Ha) j Hj)).
  Qed.
  Lemma bounded s N : spatial_system coords s -> (forall q, In q s -> avs (pairs k N) (snd q)) ->
    forall q l, In q s -> averaged_in l (snd q) -> List.length l <= 2 /\ total_order l <= N.
  Proof.
    intros Hs Hp q l Hq Hl. pose proof (Hp q Hq) as H. rewrite avs_iff in H. destruct (H l Hl) as [H1 H2]. split; [exact H1|].
    rewrite <- (jwt_spatial l); [exact H2|]. exact (averages_spatial s Hs q l Hq Hl).
  Qed.
  Lemma expectation_two s : expectation_system enum enumC enumF coords eqs = Ok s -> forall q l, In q s -> averaged_in l (snd q) -> 2 <= List.length l.
  Proof.
    unfold expectation_system. destruct (internal_closure enum coords eqs) as [cl|] eqn:Hcl; cbn [bind]; [|discriminate].
    intros H q l Hq Hl. apply Ok_inj in H. subst s. unfold second_order_reynolds in Hq. rewrite map_map in Hq. apply in_map_iff in Hq. destruct Hq as (i & <- & Hi).
    apply fields_in in Hi. cbn [on_eq snd] in Hl.
    set (r := small_one (snd (reynolds enumF eqs i))) in *. set (p := sub_fns (enumF (subs_error eqs)) (expect r)) in *.
    assert (Gen : pall (occ (parameter no_tensor coords n) (parameter no_tensor coords n) (sigf eqs)) r).
    { apply small_one_all. eapply reynolds_general; auto. }
    assert (Can : canon p).
    { eapply subs_error_canon; auto. apply canon_expect, canon_small. eapply reynolds_canon; auto. }
    assert (Cl : pall (occ (detf (parameter no_tensor coords n)) (oke no_tensor coords eqs) (sigf eqs)) p).
    { eapply error_closed; auto. apply expect_mixed, Gen. }
    assert (A : avs (fun l => averaged_in l p) p) by (apply avs_iff; auto).
    pose proof (internal_avs enum enumC coords eqs Henum HenumC Hcoords Hne cl _ _ Hcl A) as B. rewrite avs_iff in B. destruct (B l Hl) as [B1 B2].
    destruct (canon_sorted p Can l B1) as (_ & S1 & S2). destruct l as [|j [|j' l]]; [congruence| |cbn; lia]. destruct B2. left.
    specialize (S2 j eq_refl). destruct B1 as (c & m & w & Hm & Ha). destruct (Cl c m Hm _ Ha j (or_introl eq_refl)) as [Hr [Hok Hn]].
    destruct j as [f w']. cbn [fst snd] in *. subst w'. destruct f; try discriminate; [destruct (Hn i0 eq_refl)|]. exists i0. auto.
  Qed.

  Lemma main_orders : exists e v c m, expectation_system enum enumC enumF coords eqs = Ok e
    /\ variance_system enum enumD enumC enumF enumU coords eqs = Ok v
    /\ cross_covariance_system enum enumD enumC enumF enumU coords eqs = Ok c
    /\ metric_system enum enumD enumC enumF enumU coords eqs = Ok m
    /\ orders_bounded (2 * k) e /\ orders_bounded k (v ++ optional c) /\ orders_bounded (k + 2) m.
  Proof.
    destruct (explicit_parameters enum enumD enumC enumF enumU coords eqs HR Hcoords Hne Ht HU HS) as (e & v & c & m & He & Hv & Hc & Hm & S1 & S2 & S3 & S4).
    destruct (main_reduced enum enumD enumC enumF enumU coords eqs HR Hcoords Hne Ht HU HS) as (v' & c' & m' & Hv' & Hc' & Hm' & Red).
    rewrite Hv in Hv'. rewrite Hc in Hc'. rewrite Hm in Hm'. apply Ok_inj in Hv', Hc', Hm'. subst v' c' m'.
    exists e, v, c, m. repeat (split; [assumption|]). split; [|split].
    - intros q l Hq Hl. pose proof (bounded e _ S1 (expectation_pairs e He) q l Hq Hl). pose proof (expectation_two e He q l Hq Hl). lia.
    - intros q l Hq Hl. assert (In q (v ++ optional c ++ m)) as Hq' by (rewrite !in_app_iff in *; tauto). destruct (Red q l Hq' Hl) as [R _].
      apply in_app_iff in Hq. destruct Hq as [Hq|Hq].
      + pose proof (bounded v _ S2 (variance_pairs v Hv) q l Hq Hl). lia.
      + pose proof (bounded (optional c) _ S3 (covariance_pairs c Hc) q l Hq Hl). lia.
    - intros q l Hq Hl. assert (In q (v ++ optional c ++ m)) as Hq' by (rewrite !in_app_iff in *; tauto). destruct (Red q l Hq' Hl) as [R _].
      pose proof (bounded m _ S4 (metric_pairs m Hm) q l Hq Hl). lia.
  Qed.

  (** one field *)
  Lemma main_one : n = 1 -> exists v m, variance_system enum enumD enumC enumF enumU coords eqs = Ok v
    /\ metric_system enum enumD enumC enumF enumU coords eqs = Ok m
    /\ (forall q l, In q v -> averaged_in l (snd q) -> one_average coords k l) /\ (forall q l, In q m -> averaged_in l (snd q) -> one_average coords (k + 2) l).
  Proof.
    intros H1. destruct main_orders as (e & v & c & m & _ & Hv & Hc & Hm & _ & Bv & Bm).
    destruct (explicit_parameters enum enumD enumC enumF enumU coords eqs HR Hcoords Hne Ht HU HS) as (_ & v1 & _ & m1 & _ & Hv1 & _ & Hm1 & _ & S2 & _ & S4).
    destruct (main_reduced enum enumD enumC enumF enumU coords eqs HR Hcoords Hne Ht HU HS) as (v' & c' & m' & Hv' & Hc' & Hm' & Red).
    rewrite Hv in Hv', Hv1. rewrite Hc in Hc'. rewrite Hm in Hm', Hm1. apply Ok_inj in Hv', Hc', Hm', Hv1, Hm1. subst v' c' m' v1 m1.
    exists v, m. repeat (split; [assumption|]).
    assert (G : forall N s q l, spatial_system coords s -> In q s -> averaged_in l (snd q) -> reduced n l -> List.length l = 2 /\ total_order l <= N -> one_average coords N l).
    { intros N s q l Hs Hq Hl (_ & R1 & R2) [L1 L2]. pose proof (averages_spatial s Hs q l Hq Hl) as Hsp.
      destruct l as [|[f w] [|[g w'] [|]]]; try discriminate. destruct (R1 (f, w) (or_introl eq_refl)) as (i & Hi & Ei). destruct (R1 (g, w') (or_intror (or_introl eq_refl))) as (j & Hj & Ej).
      cbn [fst] in Ei, Ej. subst f g. assert (i = 0) by lia. assert (j = 0) by lia. subst i j.
      destruct (R2 0 w 0 w' eq_refl) as [[C _]|(_ & -> & H4)]; [congruence|]. exists w'. split; [reflexivity|].
      split; [apply spatial_word_iff, (Hsp (FEps 0, w')); right; left; reflexivity|]. cbn in L2. lia. }
    split; intros q l Hq Hl.
    - apply (G k v q l S2 Hq Hl); [apply (Red q l); [rewrite !in_app_iff; auto|exact Hl]|apply (Bv q l); [apply in_app_iff; auto|exact Hl]].
    - apply (G (k + 2) m q l S4 Hq Hl); [apply (Red q l); [rewrite !in_app_iff; auto|exact Hl]|exact (Bm q l Hq Hl)].
  Qed.
  Lemma main_closed : n = 1 -> exists v m, variance_system enum enumD enumC enumF enumU coords eqs = Ok v
    /\ metric_system enum enumD enumC enumF enumU coords eqs = Ok m
    /\ (k <= 3 -> forall q l, In q v -> ~ averaged_in l (snd q)) /\ (k <= 1 -> forall q l, In q m -> ~ averaged_in l (snd q)).
  Proof.
    intros H1. destruct (main_one H1) as (v & m & Hv & Hm & Av & Am). exists v, m. repeat (split; [assumption|]).
    split; intros Hk q l Hq Hl; [destruct (Av q l Hq Hl) as (w & _ & _ & Hw)|destruct (Am q l Hq Hl) as (w & _ & _ & Hw)]; lia.
  Qed.

  (** *** unclosed terms *)
  Lemma clean_pairs N s : (forall q, In q s -> avs (pairs k N) (snd q)) -> (forall q, In q s -> pall (occ (detf (parameter no_tensor coords n)) (oke no_tensor coords eqs) (sigf eqs)) (snd q)) ->
    forall q, In q (clean enumF eqs s) -> avs (pairs k N) (snd q).
  Proof.
    intros H1 H2 q Hq. unfold clean in Hq. apply in_map_iff in Hq. destruct Hq as (q0 & <- & Hq). cbn [on_eq snd]. apply (within_avs k 0 0).
    apply within_sub_fns; [intros l l' [L1 L2] _ L3 L4; split; lia| |].
    - intros f v Hf. apply (Permutation_in _ (HenumF _)), in_map_iff in Hf. destruct Hf as (i & E & _). inversion E; subst. apply (within_jet k (FField i) []).
    - apply within_of_avs; [exact (H1 q0 Hq)|]. apply (det_closed _ _ _ _ (H2 q0 Hq)).
  Qed.
  Lemma main_unclosed : exists us, unclosed_terms enum enumD enumC enumF enumU coords eqs [] = Ok us
    /\ forall l, In l us -> List.length l <= 2 /\ total_order l <= Nat.max (2 * k) (k + 2).
  Proof.
    destruct (explicit_pkf enum enumD enumC enumF enumU coords eqs HR Hcoords Hne Ht HU HS []) as (s & _ & _ & Hs & _ & _ & Sp & _); [intros l v []|].
    destruct (expectation_ok enum enumC enumF no_tensor coords eqs) as (e & He & _ & Ce); auto.
    destruct (variance_ok enum enumD enumC enumF enumU no_tensor coords eqs) as (v & Hv & _ & Cv); auto.
    destruct (covariance_ok enum enumD enumC enumF enumU no_tensor coords eqs) as (c & Hc & (_ & Cc) & _); auto.
    destruct (metric_ok enum enumD enumC enumF enumU no_tensor coords eqs) as (m & Hm & _ & Cm); auto.
    unfold unclosed_terms. rewrite Hs. cbn [bind]. eexists. split; [reflexivity|]. intros l Hl. apply nodup_In, in_flat_map in Hl. destruct Hl as (q & Hq & Hl).
    apply averaged_iff in Hl.
    assert (A : avs (pairs k (Nat.max (2 * k) (k + 2))) (snd q)).
    { clear - HR Henum HenumD HenumC HenumF HenumU Hcoords Hne Ht HU HS HK Hs Hq He Hv Hc Hm Ce Cv Cc Cm. unfold in_metric in Hs. rewrite He, Hv, Hc, Hm in Hs. cbn [bind apply_closure] in Hs. apply Ok_inj in Hs. subst s.
      assert (W : forall N p, N <= Nat.max (2 * k) (k + 2) -> avs (pairs k N) p -> avs (pairs k (Nat.max (2 * k) (k + 2))) p).
      { intros N p HN Hp. revert Hp. apply pall_weaken. intros a Ha. destruct a; try exact I. destruct Ha as [A1 A2]. split; [exact A1|lia]. }
      rewrite !in_app_iff in Hq. destruct Hq as [Hq|[Hq|[Hq|Hq]]]; revert q Hq; apply clean_pairs; auto; intros q Hq.
      - apply (W (2 * k)); [lia|]. exact (expectation_pairs e He q Hq).
      - apply (W k); [lia|]. exact (variance_pairs v Hv q Hq).
      - apply (W k); [lia|]. exact (covariance_pairs c Hc q Hq).
      - apply (W (k + 2)); [lia|]. exact (metric_pairs m Hm q Hq). }
    rewrite avs_iff in A. destruct (A l Hl) as [A1 A2]. split; [exact A1|]. rewrite <- (jwt_spatial l); [exact A2|]. exact (averages_spatial s Sp q l Hq Hl).
  Qed.
End Bounds.
