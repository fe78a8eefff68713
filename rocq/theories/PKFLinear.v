(** Linear dynamics: at most one random factor, so that no average remains (C112). *)
From Coq Require Import List Arith ZArith QArith Bool String Permutation Sorted Lia.
From Verif Require Import PyBase PyBaseFacts PartialOrderModel PartialOrderSpec TreeModel TreeSpec
  PKFModel PKFSpec PKFAlg PKFAtoms PKFClosure PKFProofs PKFInv PKFShape PKFMore PKFMain PKFWords PKFTime PKFTimeSpec PKFExplicit PKFExplicitMain
  PKFCanon PKFNormal PKFReduced PKFDegree PKFOrderSpec PKFDegreeMain PKFLinearSpec.
Import ListNotations.
Close Scope Q_scope.
Close Scope Z_scope.
Open Scope nat_scope.
Open Scope string_scope.
Open Scope list_scope.

(** *** number of jets of fields and of errors *)
Definition unk (a : atom) : bool := match a with AJet (FField _) _ | AJet (FErr _) _ => true | _ => false end.
Definition fe (m : mono) : nat := List.length (filter unk m).
Notation fewer z := (pmall (fun m => fe m <= z)).
Lemma fe_app a b : fe (a ++ b) = fe a + fe b.
Proof. unfold fe. rewrite filter_app, app_length. reflexivity. Qed.
Lemma fe_perm a b : Permutation a b -> fe a = fe b.
Proof.
  intros H. unfold fe. induction H; cbn [filter]; try congruence.
  - destruct (unk x); cbn [List.length]; congruence.
  - destruct (unk x), (unk y); reflexivity.
Qed.
Lemma fe_mmul a b : fe (mmul a b) = fe a + fe b.
Proof.
  unfold mmul. induction a as [|x a IH]; [reflexivity|]. cbn [fold_right]. change (x :: a) with ([x] ++ a). rewrite fe_app, <- Nat.add_assoc, <- IH.
  generalize (fold_right mins b a). intros m. unfold mins. assert (G : fe (insert_atom x m) = fe [x] + fe m).
  { rewrite (fe_perm _ _ (insert_perm x m)). change (x :: m) with ([x] ++ m). apply fe_app. }
  destruct (inverse x) as [y|] eqn:Hi; [|exact G]. destruct (remove_atom y m) as [r|] eqn:Hr; [|exact G].
  rewrite (fe_perm m _ (remove_perm _ _ _ Hr)). destruct x; try discriminate; injection Hi as <-; reflexivity.
Qed.
Lemma fewer_le x y p : x <= y -> fewer x p -> fewer y p.
Proof. intros H Hp c m Hm. specialize (Hp c m Hm). cbn in *. lia. Qed.
Lemma fewer_mul x y p q : fewer x p -> fewer y q -> fewer (x + y) (pmul p q).
Proof. apply pmul_m. intros m m' H1 H2. rewrite fe_mmul. lia. Qed.
Lemma fewer_mulm x c m p : fewer x p -> fewer (fe m + x) (pmulm c m p).
Proof. apply pmulm_m. intros m' H. rewrite fe_mmul. lia. Qed.
Lemma fewer_pjet f w : fewer (fe [AJet f w]) (pjet f w).
Proof.
  assert (D : fewer (fe [AJet f w]) [(1%Q, [AJet f w])]) by (intros c m [H|[]]; injection H as <- <-; apply le_n).
  destruct f; try exact D; unfold pjet.
  - destruct w; [|exact D]. intros c m [H|[]]. injection H as <- <-. apply le_n.
  - destruct (forallb _ w); [exact D|intros c m []].
Qed.
Lemma fewer_datom c a : fewer (fe [a]) (datom c a).
Proof.
  destruct a as [f w|w l|j| |i|i]; cbn [datom]; try (intros q m []; fail).
  - replace (fe [AJet f w]) with (fe [AJet f (winsert c w)]); [apply fewer_pjet|]. destruct f; reflexivity.
  - intros q m [H|[]]. injection H as <- <-. apply le_n.
  - exact (fewer_mulm _ _ [AIsig i] _ (fewer_pjet (FVar i) [c])).
  - exact (fewer_mulm _ _ [AIsig i; AIsig i; AIsig i] _ (fewer_pjet (FVar i) [c])).
Qed.
Lemma fewer_dmono c m : fewer (fe m) (dmono c m).
Proof.
  induction m as [|a r IH]; cbn [dmono]; [intros q m []|]. change (a :: r) with ([a] ++ r). rewrite fe_app. apply padd_m.
  - rewrite Nat.add_comm. apply fewer_mulm, fewer_datom. - apply fewer_mulm, IH.
Qed.
Lemma fewer_deriv c z p : fewer z p -> fewer z (pderiv c p).
Proof.
  intros Hp. unfold pderiv. induction p as [|[q m] p IH]; cbn [fold_right]; [intros q m []|].
  apply padd_m; [apply pscale_m|apply IH; intros x y H; apply (Hp x y); right; exact H]. cbn [snd].
  apply (fewer_le (fe m)); [exact (Hp q m (or_introl eq_refl))|apply fewer_dmono].
Qed.
Lemma fewer_derivs w z p : fewer z p -> fewer z (pderivs w p).
Proof. intros Hp. unfold pderivs. induction w as [|c w IH]; cbn [fold_right]; [exact Hp|apply fewer_deriv, IH]. Qed.
Lemma fewer_replace z (h : atom -> poly) p : fewer z p -> (forall c m a, In (c, m) p -> In a m -> fewer (fe [a]) (h a)) ->
  fewer z (psum (map (fun t => pscale (fst t) (pprod (map h (snd t)))) p)).
Proof.
  intros Hp Hh. apply psum_m. intros q Hq. apply in_map_iff in Hq. destruct Hq as ([x m] & <- & Hm). cbn [fst snd]. apply pscale_m.
  apply (fewer_le (fe m)); [exact (Hp x m Hm)|]. assert (G : forall a, In a m -> fewer (fe [a]) (h a)) by (intros a Ha; exact (Hh x m a Hm Ha)).
  clear - G. unfold pprod. induction m as [|a m IH]; cbn [map fold_right].
  - intros c m [H|[]]. injection H as <- <-. apply le_n.
  - change (a :: m) with ([a] ++ m). rewrite fe_app. apply fewer_mul; [apply G; left; reflexivity|apply IH; intros; apply G; right; assumption].
Qed.
Lemma jets_fe m : (forall a, In a m -> match a with AJet (FEps _) _ => False | _ => True end) -> List.length (random_jets m) <= fe m.
Proof.
  intros H. induction m as [|a m IH]; [apply le_n|]. change (a :: m) with ([a] ++ m). rewrite random_app, app_length, fe_app.
  apply Nat.add_le_mono; [|apply IH; intros; apply H; right; assumption]. specialize (H a (or_introl eq_refl)).
  destruct a; try (cbn; lia). destruct f; cbn in *; try lia.
Qed.

Section Linear.
  Variables (enum : list mi -> list mi) (enumD : tdict -> tdict) (enumC : edict -> edict)
    (enumF : list (fn * poly) -> list (fn * poly)) (enumU : list fn -> list fn).
  Variables (coords : list string) (eqs : list poly) (k : nat).
  Hypothesis HR : rearrangements enum enumD enumC enumF enumU.
  Hypothesis Hcoords : NoDup coords.
  Hypothesis Hne : coords <> [].
  Hypothesis Ht : ~ In "t" coords.
  Hypothesis HU : user_system eqs.
  Hypothesis HS : Forall (spatial_poly coords) eqs.
  Hypothesis HK : Forall (order_at_most k) eqs.
  Hypothesis HL : Forall linear_poly eqs.
  Let Henum := proj1 HR.
  Let HenumD := proj1 (proj2 HR).
  Let HenumC := proj1 (proj2 (proj2 HR)).
  Let HenumF := proj1 (proj2 (proj2 (proj2 HR))).
  Let HenumU := proj2 (proj2 (proj2 (proj2 HR))).
  Notation n := (List.length eqs).
  Notation within c N A := (pmall (rnd k c N A)).
  Notation nothing := (fun _ : list jet => False).
  Notation low := (PKFDegreeMain.low k).

  Lemma value_fewer i : fewer 1 (padd (pfn (FMean i)) (pmulm 1 [ASmall] (pfn (FErr i)))).
  Proof.
    apply padd_m; [apply (fewer_le 0); [lia|exact (fewer_pjet (FMean i) [])]|]. exact (fewer_mulm _ 1 [ASmall] _ (fewer_pjet (FErr i) [])).
  Qed.
  Lemma one_fewer i p : pall low p -> fewer 1 p -> fewer 1 (sub_fn (FField i) (padd (pfn (FMean i)) (pmulm 1 [ASmall] (pfn (FErr i)))) p).
  Proof.
    intros H1 H2. unfold sub_fn, psubst. apply fewer_replace; [exact H2|]. intros c m a Hm Ha. pose proof (H1 c m Hm a Ha) as L.
    assert (D : fewer (fe [a]) [(1%Q, [a])]) by (intros q m' [H|[]]; injection H as <- <-; apply le_n).
    destruct a as [f w|w l| | | |]; cbn [asubst]; try exact D; [|destruct L].
    destruct (fn_eq_dec f (FField i)) as [->|]; [|apply fewer_pjet]. change (fe [AJet (FField i) w]) with 1. apply fewer_derivs, value_fewer.
  Qed.
  Lemma reynolds_fewer p : pall low p -> exceeds 0%Z p -> fewer 1 p -> fewer 1 (subs_reynolds enumF eqs p).
  Proof.
    unfold subs_reynolds, sub_fns. set (d := map _ (fields eqs)).
    assert (Hd : forall f v, In (f, v) (enumF d) -> exists i, f = FField i /\ v = padd (pfn (FMean i)) (pmulm 1 [ASmall] (pfn (FErr i)))).
    { intros f v Hin. apply (Permutation_in _ (HenumF d)) in Hin. unfold d in Hin. apply in_map_iff in Hin. destruct Hin as (i & E & _). apply pair_inj in E.
      destruct E as [<- <-]. exists i. auto. }
    revert p Hd. generalize (enumF d). clear d. induction l as [|[f v] l IH]; intros p Hd H1 H2 H3; cbn [fold_left]; [auto|].
    destruct (Hd f v (or_introl eq_refl)) as (i & -> & ->). destruct (one_sub k i p H1 H2). apply IH; auto; [intros f v H'; apply Hd; right; exact H'|].
    apply one_fewer; assumption.
  Qed.
  Lemma user_fewer i : i < n -> fewer 1 (nth i eqs []).
  Proof.
    intros Hi c m Hm. pose proof (nth_In eqs [] Hi) as Hin. rewrite Forall_forall in HL. pose proof (HL _ Hin c m Hm) as L.
    assert (U : forall a, In a m -> user_atom n a) by (intros a; exact (HU _ c m a Hin Hm)).
    replace (fe m) with (List.length (filter prognostic m)); [exact L|]. clear - U. unfold fe. f_equal. apply filter_ext_in. intros a Ha. specialize (U a Ha).
    destruct a; try reflexivity. destruct f; try reflexivity. destruct U.
  Qed.
  Lemma second_linear q : In q (second_order_reynolds enumF eqs) -> within 1 (1 * k) nothing (snd q).
  Proof.
    unfold second_order_reynolds. intros Hq. apply in_map_iff in Hq. destruct Hq as (i & <- & Hi). apply fields_in in Hi. cbn [snd reynolds].
    destruct (user_low coords eqs k Ht HU HS HK i Hi) as [U1 U2].
    destruct (subs_reynolds_low enum enumD enumC enumF enumU eqs k HR _ U1 U2) as [L1 L2]. apply small_one_within; [apply filter_all, L1|].
    intros x m Hm. apply filter_In in Hm. destruct Hm as [Hm _]. pose proof (reynolds_fewer _ U1 U2 (user_fewer i Hi) x m Hm) as F. cbn in F.
    eapply Nat.le_trans; [apply jets_fe|exact F]. intros a Ha. specialize (L1 x m Hm a Ha). destruct a; try exact I. destruct f; try exact I. exact L1.
  Qed.
  Definition alone (l : list jet) : Prop := List.length l <= 1.
  Lemma alone_steady : steady k alone.
  Proof. intros l l' H _ H3 _. unfold alone in *. lia. Qed.
  Lemma expectation_free s : expectation_system enum enumC enumF coords eqs = Ok s -> no_average s.
  Proof.
    intros Hs q l Hq Hl. pose proof (expectation_two enum enumD enumC enumF enumU coords eqs HR Hcoords Hne HU s Hs q l Hq Hl) as Two.
    unfold expectation_system in Hs. destruct (internal_closure enum coords eqs) as [cl|] eqn:Hcl; cbn [bind] in Hs; [|discriminate].
    apply Ok_inj in Hs. subst s. apply in_map_iff in Hq. destruct Hq as (q0 & <- & Hq). cbn [on_eq snd] in Hl.
    assert (A : avs alone (sub_exps (enumC cl) (sub_fns (enumF (subs_error eqs)) (expect (snd q0))))).
    { apply avs_kept.
      { intros l' v H' _. apply (Permutation_in _ (HenumC cl)) in H'. refine (avs_weaken nothing _ _ (fun _ F => match F with end) _). eapply internal_free; [exact Hcl|exact H']. }
      apply (within_avs k 0 0). apply within_sub_fns; [apply alone_steady| |].
      - intros f v Hin. apply (Permutation_in _ (HenumF _)) in Hin. apply in_map_iff in Hin. destruct Hin as (i & E & _).
        apply pair_inj in E. destruct E as [<- <-]. apply (within_mulm k 0 0 1 0); [apply rnd_det; intros a [<-|[]]; exact I|]. exact (within_jet k (FEps i) [] _).
      - apply (within_expect k 1 (1 * k) _ nothing); [exact (second_linear q0 Hq)|intros l' []|intros l' _ X _; exact X]. }
    rewrite avs_iff in A. specialize (A l Hl). unfold alone in A. lia.
  Qed.

  (** *** no average in the three forms of the system, for one field *)
  Notation free := (within 0 0 nothing).
  Lemma free_of s fs : shaped s fs (pall (occ (detf (parameter no_tensor coords n)) (oke no_tensor coords eqs) (sigf eqs))) -> no_average s ->
    forall q, In q s -> free (snd q).
  Proof.
    intros [_ Hc] Hn q Hq. apply within_of_avs; [apply avs_iff; intros l Hl; exact (Hn q l Hq Hl)|]. exact (det_closed _ _ _ _ (Hc q Hq)).
  Qed.
  Lemma free_no s : (forall q, In q s -> free (snd q)) -> no_average s.
  Proof. intros H q l Hq Hl. pose proof (within_avs k 0 0 _ _ (H q Hq)) as A. rewrite avs_iff in A. exact (A l Hl). Qed.
  Lemma clean_free s : (forall q, In q s -> free (snd q)) -> forall q, In q (clean enumF eqs s) -> free (snd q).
  Proof.
    intros H q Hq. unfold clean in Hq. apply in_map_iff in Hq. destruct Hq as (q0 & <- & Hq). cbn [on_eq snd].
    apply within_sub_fns; [apply none_steady| |exact (H q0 Hq)].
    intros f v Hf. apply (Permutation_in _ (HenumF _)), in_map_iff in Hf. destruct Hf as (i & E & _). inversion E; subst. apply (within_jet k (FField i) []).
  Qed.
  Lemma systems_free : n = 1 -> k <= 1 -> exists e v m, expectation_system enum enumC enumF coords eqs = Ok e
    /\ variance_system enum enumD enumC enumF enumU coords eqs = Ok v
    /\ cross_covariance_system enum enumD enumC enumF enumU coords eqs = Ok None
    /\ metric_system enum enumD enumC enumF enumU coords eqs = Ok m
    /\ map fst m = map time_derivative (map (fun iab => FMet (fst iab) (fst (snd iab)) (snd (snd iab))) (metric_indices coords eqs))
    /\ (forall q, In q e -> free (snd q)) /\ (forall q, In q v -> free (snd q)) /\ (forall q, In q m -> free (snd q)).
  Proof.
    intros H1 Hk. destruct (main_closed enum enumD enumC enumF enumU coords eqs k HR Hcoords Hne Ht HU HS HK H1) as (v & m & Hv & Hm & Fv & Fm).
    destruct (expectation_ok enum enumC enumF no_tensor coords eqs) as (e & He & Ce); auto.
    destruct (variance_ok enum enumD enumC enumF enumU no_tensor coords eqs) as (v' & Hv' & Cv); auto.
    destruct (metric_ok enum enumD enumC enumF enumU no_tensor coords eqs) as (m' & Hm' & Cm); auto.
    rewrite Hv in Hv'. rewrite Hm in Hm'. apply Ok_inj in Hv', Hm'. subst v' m'.
    exists e, v, m. split; [exact He|]. split; [exact Hv|]. split; [unfold cross_covariance_system, nfields; rewrite H1; reflexivity|]. split; [exact Hm|].
    split; [exact (proj1 Cm)|].
    split; [exact (free_of e _ Ce (expectation_free e He))|]. split; [exact (free_of v _ Cv (Fv (Nat.le_trans _ 1 3 Hk (le_S _ _ (le_S _ _ (le_n 1))))))|].
    exact (free_of m _ Cm (Fm Hk)).
  Qed.
  Lemma app_free s s' : (forall q : pequation, In q s -> free (snd q)) -> (forall q, In q s' -> free (snd q)) -> forall q, In q (s ++ s') -> free (snd q).
  Proof. intros H H' q Hq. apply in_app_iff in Hq. destruct Hq; auto. Qed.
  Lemma metric_free s : n = 1 -> k <= 1 -> in_metric enum enumD enumC enumF enumU coords eqs [] = Ok s -> no_average s.
  Proof.
    intros H1 Hk Hs. destruct (systems_free H1 Hk) as (e & v & m & He & Hv & Hc & Hm & _ & Fe & Fv & Fm).
    unfold in_metric in Hs. rewrite He, Hv, Hc, Hm in Hs. cbn [bind apply_closure optional] in Hs. apply Ok_inj in Hs. subst s.
    apply free_no. repeat apply app_free; apply clean_free; auto. intros q [].
  Qed.
  Lemma prod_free c N c' N' p q : within c N nothing p -> within c' N' nothing q -> c + c' <= 0 -> free (pmul p q).
  Proof. intros H1 H2 H. apply (within_zero k (N + N')). apply (within_weaken k (c + c') (N + N') _ _ nothing nothing); auto. apply within_mul; assumption. Qed.
  Lemma tensor_free (tensor inv : nat -> nat -> nat -> fn) scale factor cov s : n = 1 -> k <= 1 ->
    (forall i a b, is_random (tensor i a b) = false) -> (forall i a b, is_random (inv i a b) = false) ->
    in_tensor enum enumD enumC enumF enumU coords eqs [] tensor inv scale factor cov = Ok s -> no_average s.
  Proof.
    intros H1 Hk HT HI Hs. destruct (systems_free H1 Hk) as (e & v & m & He & Hv & Hc & Hm & Lm & Fe & Fv & Fm).
    unfold in_tensor in Hs. rewrite Hm in Hs. cbn [bind apply_closure] in Hs. rewrite (trend_dict_ok m _ Lm) in Hs. cbn [bind] in Hs. rewrite He, Hv in Hs. cbn [bind] in Hs.
    assert (Hc' : (if cov then cross_covariance_system enum enumD enumC enumF enumU coords eqs else Ok None) = Ok None) by (destruct cov; [exact Hc|reflexivity]).
    rewrite Hc' in Hs. cbn [bind apply_closure optional] in Hs. apply Ok_inj in Hs. subst s. apply free_no, clean_free.
    assert (J : forall f w, is_random f = false -> free (pjet f w)).
    { intros f w Hf. pose proof (within_jet k f w nothing) as W. unfold fc in W. rewrite Hf in W. exact W. }
    assert (T : forall p, free p -> free (sub_fns (enumF (metric_to_tensor coords eqs inv scale)) p)).
    { intros p Hp. apply within_sub_fns; [apply none_steady| |exact Hp]. intros f v' Hin. apply (Permutation_in _ (HenumF _)) in Hin.
      apply in_flat_map in Hin. destruct Hin as (i & _ & Hin). apply in_map_iff in Hin. destruct Hin as ([a b] & E & _). apply pair_inj in E. destruct E as [<- <-].
      unfold metric. destruct (Nat.ltb _ _); unfold fc; cbn [is_random]; apply pscale_m, J, HI. }
    apply app_free.
    - intros q Hq. apply in_map_iff in Hq. destruct Hq as (q0 & <- & Hq). cbn [on_eq snd]. apply T. rewrite app_nil_r in Hq. exact (app_free e v Fe Fv q0 Hq).
    - intros q Hq. apply in_map_iff in Hq. destruct Hq as ([i [a b]] & <- & _). cbn [tensor_equation snd]. apply T.
      apply within_sub_trends; [apply none_steady| |].
      + intros f v' Hin. apply (Permutation_in _ (HenumF _)) in Hin. pose proof (in_combine_l _ _ _ _ Hin) as Hf. apply in_combine_r, in_map_iff in Hin.
        destruct Hin as (q & <- & Hq). apply in_map_iff in Hf. destruct Hf as (x & <- & _). exact (Fm q Hq).
      + unfold tensor_trend. apply pscale_m, psum_m. intros p Hp. apply in_flat_map in Hp. destruct Hp as (c & _ & Hp). apply in_map_iff in Hp. destruct Hp as (d & <- & _).
        assert (S : forall i a b, free (pfn (sym tensor i a b))) by (intros; unfold sym; destruct (Nat.ltb _ _); apply J, HT).
        assert (M : free (pjet (metric i c d) ["t"])) by (unfold metric; destruct (Nat.ltb _ _); apply J; reflexivity).
        apply (prod_free 0 0 0 0); [apply S| |lia]. apply (prod_free 0 0 0 0); [exact M|apply S|lia].
  Qed.
End Linear.
