(** Which averages remain once the external closure is applied (C55). *)
From Coq Require Import List Arith ZArith NArith QArith Bool String Permutation Sorted Lia.
From Verif Require Import PyBase PyBaseFacts PartialOrderModel TreeModel PKFModel PKFSpec PKFAlg PKFAtoms PKFClosure PKFProofs PKFInv PKFShape PKFMore PKFMain
  PKFTime PKFCanon PKFNormal.
Import ListNotations.
Close Scope Q_scope.
Close Scope N_scope.
Close Scope Z_scope.
Open Scope nat_scope.
Open Scope string_scope.
Open Scope list_scope.

(** *** averages of normalised errors survive the substitutions of other functions *)
Definition steady_average (l : list jet) : Prop :=
  jkey l = l /\ l <> [] /\ (forall j, l = [j] -> snd j = []) /\ (forall j, In j l -> exists i, fst j = FEps i).
Definition stays (P : list jet -> Prop) (l : list jet) : Prop := P l /\ steady_average l.
Lemma jets_product l : (forall j, In j l -> exists i, fst j = FEps i) ->
  pmall (fun m => m = mmul (map (fun j => AJet (fst j) (snd j)) l) []) (pprod (map (fun j => pjet (fst j) (snd j)) l)).
Proof.
  induction l as [|[f w] l IH]; intros H.
  - intros c m [E|[]]. injection E as <- <-. reflexivity.
  - destruct (H (f, w) (or_introl eq_refl)) as (i & Hi). cbn [fst] in Hi. subst f. unfold pprod. cbn [map fold_right fst snd].
    apply (pmul_m (fun m => m = [AJet (FEps i) w]) (fun m => m = mmul (map (fun j => AJet (fst j) (snd j)) l) [])).
    + intros m m' -> ->. reflexivity.
    + intros c m [E|[]]. injection E as <- <-. reflexivity.
    + apply IH. intros j Hj. apply H. right. exact Hj.
Qed.
Lemma average_kept (g : fn -> word -> poly) P w l : (forall i w, g (FEps i) w = pjet (FEps i) w) -> stays P l -> avs (stays P) (asubst g (AExp w l)).
Proof.
  intros Hg Hl. pose proof Hl as (_ & Hk & Hn & H1 & He). cbn [asubst]. apply avs_derivs.
  assert (Hm : map (fun j : jet => g (fst j) (snd j)) l = map (fun j => pjet (fst j) (snd j)) l).
  { apply map_ext_in. intros j Hj. destruct (He j Hj) as (i & ->). apply Hg. }
  rewrite Hm. pose proof (jets_product l He) as HP. unfold expect. apply psum_all. intros q Hq. apply in_map_iff in Hq.
  destruct Hq as ([c m] & <- & Hin). cbn [fst snd]. rewrite (HP c m Hin). clear HP Hin Hm. fold (jkey l). rewrite Hk.
  apply pmulm_all.
  - intros a Ha. apply filter_In in Ha. destruct Ha as [Ha _]. apply mmul_in in Ha. destruct Ha as [Ha|[]]. apply in_map_iff in Ha.
    destruct Ha as (j & <- & _). exact I.
  - unfold expect_jets. destruct l as [|[f w'] [|j l]]; [congruence| |apply pall_atom; exact Hl].
    specialize (H1 (f, w') eq_refl). cbn [snd] in H1. subst w'. apply pall_atom. exact Hl.
Qed.
Lemma psubst_kept g P p : (forall i w, g (FEps i) w = pjet (FEps i) w) -> (forall f w, avs (stays P) (g f w)) -> avs (stays P) p -> avs (stays P) (psubst g p).
Proof.
  intros He Hg Hp. unfold psubst. apply (replace_all (av (stays P))); [exact Hp|]. intros a Ha. destruct a as [f w|w l| | | |]; try (apply patom_all; exact I).
  - apply Hg. - apply average_kept; assumption.
Qed.
Lemma sub_fns_kept P d : forall p, (forall f v, In (f, v) d -> (forall i, f <> FEps i) /\ avs (stays P) v) -> avs (stays P) p -> avs (stays P) (sub_fns d p).
Proof.
  unfold sub_fns. induction d as [|[f v] d IH]; intros p Hd Hp; cbn [fold_left]; [exact Hp|].
  apply IH; [intros f' v' H; apply (Hd f' v'); right; exact H|]. destruct (Hd f v (or_introl eq_refl)) as [H1 H2]. apply psubst_kept; [| |exact Hp].
  - intros i w. cbn [fst]. destruct (fn_eq_dec (FEps i) f) as [E|]; [destruct (H1 i); auto|reflexivity].
  - intros f' w. cbn [fst snd]. destruct (fn_eq_dec f' f); [apply avs_derivs, H2|apply avs_jet].
Qed.
Lemma sub_trends_kept P d : forall p, (forall f v, In (f, v) d -> (forall i, f <> FEps i) /\ avs (stays P) v) -> avs (stays P) p -> avs (stays P) (sub_trends d p).
Proof.
  unfold sub_trends. induction d as [|[f v] d IH]; intros p Hd Hp; cbn [fold_left]; [exact Hp|].
  apply IH; [intros f' v' H; apply (Hd f' v'); right; exact H|]. destruct (Hd f v (or_introl eq_refl)) as [H1 H2]. apply psubst_kept; [| |exact Hp].
  - intros i w. cbn [fst]. destruct (fn_eq_dec (FEps i) f) as [E|]; [destruct (H1 i); auto|reflexivity].
  - intros f' w. cbn [fst snd]. destruct (fn_eq_dec f' f); [destruct (wremove "t" w); [apply avs_derivs, H2|]|]; apply avs_jet.
Qed.

Section Applied.
  Variables (enum : list mi -> list mi) (enumD : tdict -> tdict) (enumC : edict -> edict)
    (enumF : list (fn * poly) -> list (fn * poly)) (enumU : list fn -> list fn).
  Variables (coords : list string) (eqs : list poly).
  Hypothesis HR : rearrangements enum enumD enumC enumF enumU.
  Hypothesis Hcoords : NoDup coords.
  Hypothesis Hne : coords <> [].
  Hypothesis HU : user_system eqs.
  Let Henum := proj1 HR.
  Let HenumD := proj1 (proj2 HR).
  Let HenumC := proj1 (proj2 (proj2 HR)).
  Let HenumF := proj1 (proj2 (proj2 (proj2 HR))).
  Let HenumU := proj2 (proj2 (proj2 (proj2 HR))).
  Notation n := (List.length eqs).
  Notation closed := (pall (occ (detf (parameter no_tensor coords n)) (oke no_tensor coords eqs) (sigf eqs))).

  (** *** the four systems before the closure *)
  Lemma expectation_canon s : expectation_system enum enumC enumF coords eqs = Ok s -> forall q, In q s -> canon (snd q).
  Proof.
    unfold expectation_system. destruct (internal_closure enum coords eqs) as [cl|] eqn:Hcl; cbn [bind]; [|discriminate].
    intros H q Hq. apply Ok_inj in H. subst s. apply in_map_iff in Hq. destruct Hq as (q0 & <- & Hq). unfold second_order_reynolds in Hq.
    apply in_map_iff in Hq. destruct Hq as (i & <- & Hi). apply fields_in in Hi. cbn [on_eq snd].
    apply exps_canon; auto; [eapply internal_canon; eauto|]. apply subs_error_canon; auto.
    apply canon_expect, canon_small. apply reynolds_canon; auto.
  Qed.
  Lemma covariance_canon s : cross_covariance_system enum enumD enumC enumF enumU coords eqs = Ok s -> forall q, In q (optional s) -> canon (snd q).
  Proof.
    unfold cross_covariance_system. destruct (Nat.eqb _ _); [intros H q Hq; apply Ok_inj in H; subst s; destruct Hq|].
    destruct (error_system enum enumC enumF coords eqs) as [es|] eqn:Hes; cbn [bind]; [|discriminate].
    destruct (trend_dict es) as [d|] eqn:Hd; cbn [bind]; [|discriminate].
    destruct (mapM _ _) as [s'|] eqn:Hm; cbn [bind]; [|discriminate]. intros H q Hq. apply Ok_inj in H. subst s. cbn [optional] in Hq.
    destruct (mapM_in _ _ _ _ Hm Hq) as ([i j] & Hij & Hv). unfold covariance_equation in Hv.
    destruct (internal_closure enum coords eqs) as [cl|]; cbn [bind] in Hv; [|discriminate].
    destruct (dgetE _ _ _) as [V|]; cbn [bind] in Hv; [|discriminate].
    destruct (apply_internal_closure _ _ _ _ _ _ _) as [r|] eqn:Hr; cbn [bind] in Hv; [|discriminate]. apply Ok_inj in Hv. subst q. cbn [snd].
    eapply apply_canon; try exact Hr; auto. apply subs_error_canon; auto.
    eapply trends_canon; auto; [|exact Hd|apply pair_canon]. eapply error_canon; try exact Hes; auto.
  Qed.
  Lemma metric_canon s : metric_system enum enumD enumC enumF enumU coords eqs = Ok s -> forall q, In q s -> canon (snd q).
  Proof.
    unfold metric_system. destruct (epsilon_system _ _ _ _ _ _ _) as [es|] eqn:Hes; cbn [bind]; [|discriminate].
    destruct (trend_dict es) as [d|] eqn:Hd; cbn [bind]; [|discriminate]. intros H q Hq.
    destruct (mapM_in _ _ _ _ H Hq) as ([i [a b]] & Hi & Hv). unfold metric_equation in Hv.
    destruct (apply_internal_closure _ _ _ _ _ _ _) as [r|] eqn:Hr; cbn [bind] in Hv; [|discriminate]. apply Ok_inj in Hv. subst q. cbn [snd].
    eapply apply_canon; try exact Hr; auto.
    eapply trends_canon; auto; [|exact Hd|apply pair_canon]. eapply epsilon_canon; try exact Hes; auto.
  Qed.

  (** *** the closure *)
  Section Closure.
    Variable (closure : edict) (pre : list jet -> Prop).
    Hypothesis Hfree : forall l v, In (l, v) closure -> forall l', ~ averaged_in l' v.
    Notation left_over := (fun l => pre l /\ ~ In l (map fst closure)).
    Lemma closure_kept s : (forall q, In q s -> avs (stays pre) (snd q)) -> forall q, In q (apply_closure enumC closure s) -> avs (stays left_over) (snd q).
    Proof.
      intros Hs q Hq. unfold apply_closure in Hq. destruct closure as [|kv cl] eqn:Ec.
      - eapply avs_weaken; [|exact (Hs q Hq)]. intros l [H1 H2]. split; [split; [exact H1|intros []]|exact H2].
      - rewrite <- Ec in *. clear Ec kv cl. apply in_map_iff in Hq. destruct Hq as (q0 & <- & Hq). cbn [on_eq snd].
        eapply avs_weaken; [|apply (avs_sub_exps _ (stays pre) (fun _ => False)); [|exact (Hs q0 Hq)]].
        + intros l [[[H1 H2] H3]|[]]. split; [split; [exact H1|]|exact H2]. intros H. apply H3. unfold dkeys.
          exact (Permutation_in _ (Permutation_map fst (Permutation_sym (HenumC closure))) H).
        + intros l v Hin. apply avs_iff. exact (Hfree l v (Permutation_in _ (HenumC closure) Hin)).
    Qed.
    Lemma clean_kept P s : (forall q, In q s -> avs (stays P) (snd q)) -> forall q, In q (clean enumF eqs s) -> avs (stays P) (snd q).
    Proof.
      intros Hs q Hq. unfold clean in Hq. apply in_map_iff in Hq. destruct Hq as (q0 & <- & Hq). cbn [on_eq snd]. apply sub_fns_kept; [|exact (Hs q0 Hq)].
      intros f v Hf. apply (Permutation_in _ (HenumF _)), in_map_iff in Hf. destruct Hf as (i & E & _). apply pair_inj in E. destruct E as [<- <-].
      split; [discriminate|apply avs_jet].
    Qed.
    Lemma mtt_kept P inv scale p : avs (stays P) p -> avs (stays P) (sub_fns (enumF (metric_to_tensor coords eqs inv scale)) p).
    Proof.
      apply sub_fns_kept. intros f v Hf. apply (Permutation_in _ (HenumF _)) in Hf. unfold metric_to_tensor in Hf. apply in_flat_map in Hf.
      destruct Hf as (i & _ & Hf). apply in_map_iff in Hf. destruct Hf as (ab & E & _). apply pair_inj in E. destruct E as [<- <-].
      split; [intros k; unfold metric; destruct (Nat.ltb _ _); discriminate|apply pscale_all, avs_jet].
    Qed.
    Lemma tensor_kept P tensor inv scale factor m tr iab : (forall q, In q m -> avs (stays P) (snd q)) ->
      (forall q, In q m -> exists f, fst q = time_derivative f /\ forall i, f <> FEps i) -> trend_dict m = Ok tr ->
      avs (stays P) (snd (tensor_equation enumF coords eqs tensor inv scale factor tr iab)).
    Proof.
      intros Hm Hk Htr. destruct iab as [i [a b]]. unfold tensor_equation. cbn [snd]. apply mtt_kept, sub_trends_kept.
      - intros f v Hf. apply (Permutation_in _ (HenumF _)) in Hf. unfold trend_dict in Htr.
        destruct (mapM_in _ _ _ _ Htr Hf) as (q & Hq & He). destruct (Hk q Hq) as (g & Hg & Hn). rewrite Hg, trend_key_td in He. cbn [bind] in He.
        apply Ok_inj, pair_inj in He. destruct He as [<- <-]. split; [exact Hn|apply Hm, Hq].
      - unfold tensor_trend. apply pscale_all, psum_all. intros q Hq. apply in_flat_map in Hq. destruct Hq as (c & _ & Hq). apply in_map_iff in Hq.
        destruct Hq as (d & <- & _). apply pmul_all; [apply avs_jet|]. apply pmul_all; apply avs_jet.
    Qed.
  End Closure.
  Lemma stays_of (s : list pequation) : (forall q, In q s -> canon (snd q)) -> (forall q, In q s -> closed (snd q)) ->
    forall (P : list jet -> Prop) q, (forall l, averaged_in l (snd q) -> P l) -> In q s -> avs (stays P) (snd q).
  Proof.
    intros H1 H2 P q HP Hq. apply avs_iff. intros l Hl. split; [exact (HP l Hl)|]. destruct Hl as (c & m & w & Hm & Ha).
    destruct (proj2 (H1 q Hq c m Hm) _ Ha) as (A1 & A2 & A3). split; [exact A1|]. split; [exact A2|]. split; [exact A3|].
    intros j Hj. destruct (H2 q Hq c m Hm _ Ha j Hj) as [Hr [_ Hx]]. destruct (fst j); try discriminate; [destruct (Hx i eq_refl)|exists i; reflexivity].
  Qed.
  Definition before (l : list jet) : Prop := exists e v c m q,
    expectation_system enum enumC enumF coords eqs = Ok e /\ variance_system enum enumD enumC enumF enumU coords eqs = Ok v
    /\ cross_covariance_system enum enumD enumC enumF enumU coords eqs = Ok c /\ metric_system enum enumD enumC enumF enumU coords eqs = Ok m
    /\ In q (e ++ v ++ optional c ++ m) /\ averaged_in l (snd q).
  Lemma systems_stay : exists e v c m,
    expectation_system enum enumC enumF coords eqs = Ok e /\ variance_system enum enumD enumC enumF enumU coords eqs = Ok v
    /\ cross_covariance_system enum enumD enumC enumF enumU coords eqs = Ok c /\ metric_system enum enumD enumC enumF enumU coords eqs = Ok m
    /\ (forall q, In q e -> avs (stays before) (snd q)) /\ (forall q, In q v -> avs (stays before) (snd q))
    /\ (forall q, In q (optional c) -> avs (stays before) (snd q)) /\ (forall q, In q m -> avs (stays before) (snd q))
    /\ (forall q, In q m -> exists f, fst q = time_derivative f /\ forall i, f <> FEps i).
  Proof.
    destruct (expectation_ok enum enumC enumF no_tensor coords eqs) as (e & He & _ & Ce); auto.
    destruct (variance_ok enum enumD enumC enumF enumU no_tensor coords eqs) as (v & Hv & _ & Cv); auto.
    destruct (covariance_ok enum enumD enumC enumF enumU no_tensor coords eqs) as (c & Hc & (_ & Cc) & _); auto.
    destruct (metric_ok enum enumD enumC enumF enumU no_tensor coords eqs) as (m & Hm & Lm & Cm); auto.
    assert (B : forall q, In q (e ++ v ++ optional c ++ m) -> forall l, averaged_in l (snd q) -> before l).
    { intros q Hq l Hl. exists e, v, c, m, q. auto 10. }
    exists e, v, c, m. repeat (split; [assumption|]).
    split; [|split; [|split; [|split]]]; intros q Hq.
    - apply (stays_of e); auto; [exact (expectation_canon e He)|apply B; rewrite !in_app_iff; auto].
    - apply (stays_of v); auto; [eapply variance_canon; try exact Hv; auto|apply B; rewrite !in_app_iff; auto].
    - apply (stays_of (optional c)); auto; [exact (covariance_canon c Hc)|apply B; rewrite !in_app_iff; auto].
    - apply (stays_of m); auto; [exact (metric_canon m Hm)|apply B; rewrite !in_app_iff; auto].
    - apply (in_map fst) in Hq. rewrite Lm in Hq. apply in_map_iff in Hq. destruct Hq as (f & <- & Hf). exists f. split; [reflexivity|].
      apply in_map_iff in Hf. destruct Hf as (iab & <- & _). discriminate.
  Qed.
  Lemma of_stays (closure : edict) (s : list pequation) : (forall q, In q s -> avs (stays (fun l => before l /\ ~ In l (map fst closure))) (snd q)) ->
    forall q l, In q s -> averaged_in l (snd q) -> before l /\ ~ In l (map fst closure).
  Proof. intros H q l Hq Hl. specialize (H q Hq). rewrite avs_iff in H. apply (H l Hl). Qed.
  Lemma metric_left (closure : edict) s : (forall l v, In (l, v) closure -> forall l', ~ averaged_in l' v) ->
    in_metric enum enumD enumC enumF enumU coords eqs closure = Ok s ->
    forall q l, In q s -> averaged_in l (snd q) -> before l /\ ~ In l (map fst closure).
  Proof.
    intros Hf Hs. destruct systems_stay as (e & v & c & m & He & Hv & Hc & Hm & Se & Sv & Sc & Sm & Lm). unfold in_metric in Hs.
    rewrite He, Hv, Hc, Hm in Hs. cbn [bind] in Hs. apply Ok_inj in Hs. subst s. apply of_stays. intros q Hq. rewrite !in_app_iff in Hq.
    destruct Hq as [Hq|[Hq|[Hq|Hq]]]; revert q Hq; apply clean_kept, closure_kept; assumption.
  Qed.
  Lemma tensor_left (closure : edict) tensor inv scale factor cov s : (forall l v, In (l, v) closure -> forall l', ~ averaged_in l' v) ->
    in_tensor enum enumD enumC enumF enumU coords eqs closure tensor inv scale factor cov = Ok s ->
    forall q l, In q s -> averaged_in l (snd q) -> before l /\ ~ In l (map fst closure).
  Proof.
    intros Hf Hs. destruct systems_stay as (e & v & c & m & He & Hv & Hc & Hm & Se & Sv & Sc & Sm & Lm). unfold in_tensor in Hs.
    rewrite Hm in Hs. cbn [bind] in Hs. destruct (trend_dict (apply_closure enumC closure m)) as [tr|] eqn:Htr; cbn [bind] in Hs; [|discriminate].
    rewrite He, Hv in Hs. cbn [bind] in Hs. set (c' := if cov then _ else _) in Hs.
    assert (Hc' : exists o, c' = Ok o /\ forall q, In q (optional o) -> avs (stays before) (snd q)).
    { unfold c'. destruct cov; [exists c; auto|exists None; split; [reflexivity|intros q []]]. }
    destruct Hc' as (o & -> & So). cbn [bind] in Hs. apply Ok_inj in Hs. subst s. apply of_stays. apply clean_kept. intros q Hq. apply in_app_iff in Hq.
    destruct Hq as [Hq|Hq]; apply in_map_iff in Hq; destruct Hq as (q0 & <- & Hq).
    - cbn [on_eq snd]. apply mtt_kept. rewrite !in_app_iff in Hq. destruct Hq as [Hq|[Hq|Hq]]; revert q0 Hq; apply closure_kept; assumption.
    - apply (tensor_kept _ _ _ _ _ (apply_closure enumC closure m)); [apply closure_kept; assumption| |exact Htr].
      intros q' Hq'. unfold apply_closure in Hq'. destruct closure as [|kv cl]; [exact (Lm q' Hq')|]. apply in_map_iff in Hq'. destruct Hq' as (q1 & <- & Hq1).
      destruct (Lm q1 Hq1) as (f & Hf1 & Hf2). exists f. split; [|exact Hf2]. cbn [on_eq fst]. rewrite Hf1. apply td_sub_exps.
  Qed.
  Lemma main_applied (closure : edict) : (forall l v, In (l, v) closure -> forall l', ~ averaged_in l' v) ->
    exists e v c m, expectation_system enum enumC enumF coords eqs = Ok e /\ variance_system enum enumD enumC enumF enumU coords eqs = Ok v
    /\ cross_covariance_system enum enumD enumC enumF enumU coords eqs = Ok c /\ metric_system enum enumD enumC enumF enumU coords eqs = Ok m
    /\ forall s, (in_metric enum enumD enumC enumF enumU coords eqs closure = Ok s
                 \/ in_diffusion enum enumD enumC enumF enumU coords eqs closure = Ok s
                 \/ in_aspect enum enumD enumC enumF enumU coords eqs closure = Ok s) ->
       forall q l, In q s -> averaged_in l (snd q) ->
         ~ In l (map fst closure) /\ exists q0, In q0 (e ++ v ++ optional c ++ m) /\ averaged_in l (snd q0).
  Proof.
    intros Hf. destruct systems_stay as (e & v & c & m & He & Hv & Hc & Hm & _). exists e, v, c, m. repeat (split; [assumption|]).
    intros s Hs q l Hq Hl. assert (G : before l /\ ~ In l (map fst closure)).
    { destruct Hs as [Hs|[Hs|Hs]]; [exact (metric_left closure s Hf Hs q l Hq Hl)|unfold in_diffusion in Hs; exact (tensor_left _ _ _ _ _ _ s Hf Hs q l Hq Hl)|
        unfold in_aspect in Hs; exact (tensor_left _ _ _ _ _ _ s Hf Hs q l Hq Hl)]. }
    destruct G as [(e' & v' & c' & m' & q0 & He' & Hv' & Hc' & Hm' & H0 & Hl0) Hk]. split; [exact Hk|].
    rewrite He in He'. rewrite Hv in Hv'. rewrite Hc in Hc'. rewrite Hm in Hm'. apply Ok_inj in He', Hv', Hc', Hm'. subst e' v' c' m'. exists q0. auto.
  Qed.
End Applied.
