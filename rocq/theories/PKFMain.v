(** The systems of SymbolicPKF: produced, of the announced shape, and exact. *)
From Coq Require Import List Arith Ring ZArith QArith Qcanon Bool String Permutation Lia.
From Verif Require Import PyBase PyBaseFacts PartialOrderModel TreeModel
  Reynolds PKFModel PKFSpec PKFAlg PKFAtoms PKFTaylor PKFClosure PKFProofs PKFTensor PKFInv PKFShape PKFMore.
Import ListNotations.
Close Scope Q_scope.
Close Scope Qc_scope.
Close Scope Z_scope.
Open Scope nat_scope.
Open Scope string_scope.
Open Scope list_scope.

Lemma nth_snd (s : list pequation) : forall i r, nth_error (map snd s) i = Some r -> exists l, nth_error s i = Some (l, r).
Proof.
  induction s as [|[l q] s IH]; intros [|i] r H; try discriminate; [|exact (IH i r H)]. exists l. cbn in H. injection H as ->. reflexivity.
Qed.

Section Main.
  Variables (enum : list mi -> list mi) (enumD : tdict -> tdict) (enumC : edict -> edict)
            (enumF : list (fn * poly) -> list (fn * poly)) (enumU : list fn -> list fn).
  Variables (coords : list string) (eqs : list poly).
  Hypothesis HR : rearrangements enum enumD enumC enumF enumU.
  Hypothesis Hcoords : NoDup coords.
  Hypothesis Hne : coords <> [].
  Hypothesis HU : user_system eqs.
  Notation n := (List.length eqs).
  Let Henum := proj1 HR.
  Let HenumD := proj1 (proj2 HR).
  Let HenumC := proj1 (proj2 (proj2 HR)).
  Let HenumF := proj1 (proj2 (proj2 (proj2 HR))).
  Let HenumU := proj2 (proj2 (proj2 (proj2 HR))).


  Lemma main_closure : exists cl, internal_closure enum coords eqs = Ok cl
    /\ forall (A : RAlg) (E : env A), statistics coords n E -> closure_holds E cl.
  Proof.
    destruct (closure_total enum coords eqs) as (cl & Hcl); auto.
    exists cl. split; [exact Hcl|]. intros A E HS. exact (internal_closure_holds E coords n HS enum eqs cl eq_refl Hcl).
  Qed.

  Lemma main_error : exists sys, error_system enum enumC enumF coords eqs = Ok sys
    /\ map fst sys = map time_derivative (map FErr (seq 0 n))
    /\ forall (A : RAlg) (E : env A), statistics coords n E ->
         forall i p rhs, nth_error eqs i = Some p -> nth_error (map snd sys) i = Some rhs -> pv E rhs = taylor1 E p.
  Proof.
    destruct (error_ok enum enumC enumF no_tensor coords eqs) as (s & Hs & Hl & _); auto.
    exists s. split; [exact Hs|]. split; [exact Hl|]. intros A E HS i p rhs Hp Hr.
    apply nth_snd in Hr. destruct Hr as (l & Hi).
    destruct (error_values E enum enumC enumF coords eqs HenumC HenumF HU HS s i l rhs Hs Hi) as (_ & _ & H).
    rewrite (nth_error_nth _ _ _ Hp) in H. exact H.
  Qed.

  Lemma main_expectation : exists sys, expectation_system enum enumC enumF coords eqs = Ok sys
    /\ map fst sys = map time_derivative (map FMean (seq 0 n))
    /\ forall (A : RAlg) (E : env A), statistics coords n E ->
         forall i p rhs, nth_error eqs i = Some p -> nth_error (map snd sys) i = Some rhs ->
           pv E rhs = EE (taylor0 E p + taylor1 E p + taylor2_coef E p)%ra.
  Proof.
    destruct (expectation_ok enum enumC enumF no_tensor coords eqs) as (s & Hs & Hl & _); auto.
    exists s. split; [exact Hs|]. split; [exact Hl|]. intros A E HS i p rhs Hp Hr.
    apply nth_snd in Hr. destruct Hr as (l & Hi).
    destruct (expectation_values E enum enumC enumF coords eqs HenumC HenumF HU HS s i l rhs Hs Hi) as (_ & _ & H).
    rewrite (nth_error_nth _ _ _ Hp) in H. exact H.
  Qed.

  Lemma only_of_closed tns p : pall (occ (detf (parameter tns coords n)) (oke tns coords eqs) (sigf eqs)) p ->
    only n (deterministic_parameter tns coords n) (normalised_error n) p.
  Proof.
    apply occ_only; [intros i H; exact H|intros f [H1 H2]; split; assumption|].
    intros f Hr [H1 H2]. destruct f; try discriminate; [destruct (H2 i eq_refl)|]. exists i. split; [exact H1|reflexivity].
  Qed.

  Lemma main_variance : exists sys, variance_system enum enumD enumC enumF enumU coords eqs = Ok sys
    /\ exact_system coords eqs (map FVar (seq 0 n)) sys.
  Proof.
    destruct (variance_ok enum enumD enumC enumF enumU no_tensor coords eqs) as (s & Hs & Hl & Hp); auto.
    exists s. split; [exact Hs|]. split; [exact Hl|]. split; [intros q Hq; apply only_of_closed, Hp, Hq|].
    intros A E HS HD. exact (variance_hold E enum enumD enumC enumF enumU coords eqs Henum HenumD HenumC HenumF Hcoords Hne HU HS HD s Hs).
  Qed.
  Lemma main_metric : exists sys, metric_system enum enumD enumC enumF enumU coords eqs = Ok sys
    /\ exact_system coords eqs (map (fun iab => FMet (fst iab) (fst (snd iab)) (snd (snd iab))) (metric_indices coords eqs)) sys.
  Proof.
    destruct (metric_ok enum enumD enumC enumF enumU no_tensor coords eqs) as (s & Hs & Hl & Hp); auto.
    exists s. split; [exact Hs|]. split; [exact Hl|]. split; [intros q Hq; apply only_of_closed, Hp, Hq|].
    intros A E HS HD. exact (metric_hold E enum enumD enumC enumF enumU coords eqs Henum HenumD HenumC HenumF Hcoords Hne HU HS HD s Hs).
  Qed.
  Lemma main_covariance : exists s, cross_covariance_system enum enumD enumC enumF enumU coords eqs = Ok s
    /\ (s = None <-> n = 1)
    /\ exact_system coords eqs (map (fun ij => FCov (fst ij) (snd ij)) (couples eqs)) (optional s).
  Proof.
    destruct (covariance_ok enum enumD enumC enumF enumU no_tensor coords eqs) as (s & Hs & (Hl & Hp) & Hn); auto.
    exists s. split; [exact Hs|]. split; [exact Hn|]. split; [exact Hl|]. split; [intros q Hq; apply only_of_closed, Hp, Hq|].
    intros A E HS HD. exact (covariance_hold E enum enumD enumC enumF enumU coords eqs Henum HenumD HenumC HenumF Hcoords Hne HU HS HD s Hs).
  Qed.
  Lemma main_epsilon : exists sys, epsilon_system enum enumD enumC enumF enumU coords eqs = Ok sys
    /\ map fst sys = map time_derivative (map FEps (seq 0 n))
    /\ (forall q, In q sys -> only n (fun f => parameter no_tensor coords n f /\ forall i, f <> FErr i) (normalised_error n) (snd q))
    /\ forall (A : RAlg) (E : env A), statistics coords n E -> error_dynamics eqs E -> forall q, In q sys -> holds E q.
  Proof.
    destruct (epsilon_ok enum enumD enumC enumF enumU no_tensor coords eqs) as (s & Hs & Hl & Hp); auto.
    exists s. split; [exact Hs|]. split; [exact Hl|]. split.
    - intros q Hq. eapply occ_only; [| | |exact (Hp q Hq)]; [intros i H; exact H|intros f H; exact H|].
      intros f Hr [H1 H2]. destruct f; try discriminate; [destruct (H2 i eq_refl)|]. exists i. split; [exact H1|reflexivity].
    - intros A E HS HD. exact (epsilon_hold E enum enumD enumC enumF enumU coords eqs Henum HenumD HenumC HenumF Hcoords Hne HU HS HD s Hs).
  Qed.

  (** *** the closed systems *)
  Lemma closed_of_only tns v : only n (deterministic_parameter tns coords n) (normalised_error n) v ->
    pall (occ (detf (parameter tns coords n)) (oke tns coords eqs) (sigf eqs)) v.
  Proof.
    intros H c m Hm a Ha. specialize (H c m a Hm Ha). destruct a as [f w|w l|k| |i|i]; cbn [occ] in *; auto.
    - destruct H as [H1 H2]. split; [exact H2|exact H1].
    - intros j Hj. destruct (H j Hj) as (i & Hi & ->). split; [reflexivity|]. split; [exact Hi|discriminate].
  Qed.

  Lemma main_in_tensor closure tensor inv scale factor cov (tns : fn -> Prop) :
    (forall l v, In (l, v) closure -> only n (deterministic_parameter tns coords n) (normalised_error n) v) ->
    (forall i a b j c d, tensor i a b = tensor j c d -> i = j /\ a = c /\ b = d) ->
    (tensor = FDif /\ inv = FInvDif /\ tns = diffusion_tensor \/ tensor = FAsp /\ inv = FInvAsp /\ tns = aspect_tensor) ->
    (scale * factor == -1)%Q ->
    exists fs sys, in_tensor enum enumD enumC enumF enumU coords eqs closure tensor inv scale factor cov = Ok sys
    /\ map fst sys = map time_derivative fs /\ NoDup fs /\ (forall g, In g fs <-> described coords n cov tensor g)
    /\ (forall q, In q sys -> only n (fun f => described coords n true tensor f
          \/ (exists i a b, i < n /\ a <= b /\ b < List.length coords /\ f = inv i a b) \/ external f) (normalised_error n) (snd q))
    /\ forall (A : RAlg) (E : env A), statistics coords n E -> error_dynamics eqs E -> mean_dynamics eqs E ->
         closure_holds E closure -> tensor_is coords n E tensor inv scale -> forall q, In q sys -> holds E q.
  Proof.
    intros HC Hi Hk Hsf.
    destruct (in_tensor_ok enum enumD enumC enumF enumU tns coords eqs) with (closure := closure) (tensor := tensor) (inv := inv)
      (scale := scale) (factor := factor) (cov := cov) as (s & Hs & Hl & Hp); auto.
    { intros l v Hin. apply closed_of_only, (HC l v Hin). }
    { intros i a b H1 H2 H3. destruct Hk as [(-> & -> & ->)|(-> & -> & ->)]; (split; [split; [reflexivity|cbn; auto]|]);
        (split; [intros ? ? ?; discriminate|split; [intros ?; discriminate|intros ? ?; discriminate]]). }
    { intros i a b H1 H2 H3. destruct Hk as [(-> & -> & ->)|(-> & -> & ->)]; (split; [split; [reflexivity|cbn; auto]|]);
        (split; [intros ? ? ?; discriminate|intros ?; discriminate]). }
    exists (described_list coords eqs cov tensor), s. split; [exact Hs|]. split; [exact Hl|]. split; [|split; [|split]].
    - apply described_nodup; [exact Hi|]. intros i a b. destruct Hk as [(-> & _)|(-> & _)]; exact I.
    - intros g. apply described_in.
    - intros q Hq. eapply occ_only; [| | |exact (Hp q Hq)]; [intros i H; exact H| |].
      + intros f [[[H1 H2] Hm] H3]. unfold described, external.
        destruct Hk as [(-> & -> & ->)|(-> & -> & ->)]; destruct f; cbn in H1, H2; try discriminate;
          try (exfalso; exact H2); try (exfalso; exact (proj2 (proj2 (proj2 H2))));
          first [ destruct (H3 _ eq_refl) | destruct (Hm _ _ _ eq_refl)
                | left; left; eexists; split; [eassumption|reflexivity]
                | left; right; left; eexists; split; [eassumption|reflexivity]
                | left; right; right; left; split; [reflexivity|]; do 2 eexists; split; [exact (proj1 H2)|split; [exact (proj2 H2)|reflexivity]]
                | right; right; do 2 eexists; reflexivity
                | left; right; right; right; do 3 eexists; split; [exact (proj1 H2)|split; [exact (proj1 (proj2 H2))|split; [exact (proj1 (proj2 (proj2 H2)))|reflexivity]]]
                | right; left; do 3 eexists; split; [exact (proj1 H2)|split; [exact (proj1 (proj2 H2))|split; [exact (proj1 (proj2 (proj2 H2)))|reflexivity]]] ].
      + intros f Hr [H1 H2]. destruct f; try discriminate; [destruct (H2 i eq_refl)|]. exists i. split; [exact H1|reflexivity].
    - intros A E HS HD HM HCl HT.
      exact (in_tensor_hold E enum enumD enumC enumF enumU coords eqs Henum HenumD HenumC HenumF Hcoords Hne HU HS HD HM closure HCl
               tensor inv scale factor HT Hsf cov s Hs).
  Qed.

  Variable closure : edict.
  Hypothesis HC : forall l v, In (l, v) closure -> only n (deterministic_parameter no_tensor coords n) (normalised_error n) v.

  Lemma main_in_metric : exists fs sys, in_metric enum enumD enumC enumF enumU coords eqs closure = Ok sys
    /\ map fst sys = map time_derivative fs /\ NoDup fs /\ (forall g, In g fs <-> described coords n true FMet g)
    /\ (forall q, In q sys -> only n (fun f => described coords n true FMet f \/ external f) (normalised_error n) (snd q))
    /\ forall (A : RAlg) (E : env A), statistics coords n E -> error_dynamics eqs E -> mean_dynamics eqs E ->
         closure_holds E closure -> forall q, In q sys -> holds E q.
  Proof.
    destruct (in_metric_ok enum enumD enumC enumF enumU no_tensor coords eqs) with (closure := closure) as (s & Hs & Hl & Hp); auto.
    { intros l v Hin. apply closed_of_only, (HC l v Hin). }
    exists (described_list coords eqs true FMet), s. split; [exact Hs|]. split; [exact Hl|]. split; [|split; [|split]].
    - apply described_nodup; [intros i a b j c d [= -> -> ->]; auto|intros; exact I].
    - intros g. apply described_in.
    - intros q Hq. eapply occ_only; [| | |exact (Hp q Hq)]; [intros i H; exact H| |].
      + intros f [[H1 H2] H3]. unfold described, external. destruct f; cbn in H1, H2; try discriminate; try (exfalso; exact H2); try (destruct H2 as (_ & _ & _ & [])).
        * left; left. exists i. auto. * destruct (H3 i eq_refl). * left; right; left. exists i. auto.
        * left; right; right; right. exists i, a, b. tauto. * left; right; right; left. split; [reflexivity|]. exists i, j. tauto.
        * right. exists k, deps. reflexivity.
      + intros f Hr [H1 H2]. destruct f; try discriminate; [destruct (H2 i eq_refl)|]. exists i. split; [exact H1|reflexivity].
    - intros A E HS HD HM HCl.
      exact (in_metric_hold E enum enumD enumC enumF enumU coords eqs Henum HenumD HenumC HenumF Hcoords Hne HU HS HD HM closure HCl s Hs).
  Qed.

  Lemma main_unclosed : exists sys u, in_metric enum enumD enumC enumF enumU coords eqs closure = Ok sys
    /\ unclosed_terms enum enumD enumC enumF enumU coords eqs closure = Ok u /\ NoDup u
    /\ forall l, In l u <-> exists q, In q sys /\ averaged_in l (snd q).
  Proof.
    destruct main_in_metric as (fs & sys & Hs & _). exists sys. eexists. split; [exact Hs|]. unfold unclosed_terms. rewrite Hs. cbn [bind].
    split; [reflexivity|]. split; [apply NoDup_nodup|]. intros l. rewrite nodup_In, in_flat_map.
    split; intros (q & H1 & H2); exists q; (split; [exact H1|]); apply averaged_iff; exact H2.
  Qed.
End Main.

Lemma main_metric_entries enum enumD enumC enumF enumU coords eqs :
  rearrangements enum enumD enumC enumF enumU -> NoDup coords -> coords <> [] -> user_system eqs ->
  exists sys fs, metric_system enum enumD enumC enumF enumU coords eqs = Ok sys
    /\ exact_system coords eqs fs sys
    /\ NoDup fs /\ forall f, In f fs <-> exists i a b, i < List.length eqs /\ a <= b /\ b < List.length coords /\ f = FMet i a b.
Proof.
  intros HR Hc Hn HU. destruct (main_metric enum enumD enumC enumF enumU coords eqs HR Hc Hn HU) as (sys & Hs & Hx).
  eexists sys, _. split; [exact Hs|]. split; [exact Hx|]. split.
  - apply NoDup_map_inj; [|apply NoDup_indices]. intros [i [a b]] [j [c d]] _ _ [= -> -> ->]. reflexivity.
  - intros f. rewrite in_map_iff. split.
    + intros ([i [a b]] & <- & H). apply indices_in in H. exists i, a, b. cbn [fst snd]. tauto.
    + intros (i & a & b & H1 & H2 & H3 & ->). exists (i, (a, b)). split; [reflexivity|]. apply indices_in; auto.
Qed.
Lemma main_covariance_pairs enum enumD enumC enumF enumU coords eqs :
  rearrangements enum enumD enumC enumF enumU -> NoDup coords -> coords <> [] -> user_system eqs ->
  exists s fs, cross_covariance_system enum enumD enumC enumF enumU coords eqs = Ok s
    /\ (s = None <-> List.length eqs = 1)
    /\ exact_system coords eqs fs (optional s)
    /\ NoDup fs /\ forall f, In f fs <-> exists i j, i < j /\ j < List.length eqs /\ f = FCov i j.
Proof.
  intros HR Hc Hn HU. destruct (main_covariance enum enumD enumC enumF enumU coords eqs HR Hc Hn HU) as (s & Hs & H1 & Hx).
  eexists s, _. split; [exact Hs|]. split; [exact H1|]. split; [exact Hx|]. split.
  - apply NoDup_map_inj; [|apply NoDup_couples]. intros [i j] [k l] _ _ [= -> ->]. reflexivity.
  - intros f. rewrite in_map_iff. split.
    + intros ([i j] & <- & H). apply couples_in in H. exists i, j. cbn [fst snd]. tauto.
    + intros (i & j & H2 & H3 & ->). exists (i, j). split; [reflexivity|]. apply couples_in; auto.
Qed.
Lemma only_tensor tns coords n v : only n (deterministic_parameter no_tensor coords n) (normalised_error n) v ->
  only n (deterministic_parameter tns coords n) (normalised_error n) v.
Proof.
  intros H c m a Hm Ha. specialize (H c m a Hm Ha). destruct a as [f w|w l|k| |i|i]; auto.
  destruct H as [H1 H2]. split; [|exact H2]. destruct f; cbn in *; try exact H1; destruct H1 as (? & ? & ? & []).
Qed.
Lemma main_in_diffusion enum enumD enumC enumF enumU coords eqs :
  rearrangements enum enumD enumC enumF enumU -> NoDup coords -> coords <> [] -> user_system eqs ->
  forall closure, (forall l v, In (l, v) closure -> only (List.length eqs) (deterministic_parameter diffusion_tensor coords (List.length eqs))
                     (normalised_error (List.length eqs)) v) ->
  exists fs sys, in_diffusion enum enumD enumC enumF enumU coords eqs closure = Ok sys
    /\ map fst sys = map time_derivative fs /\ NoDup fs
    /\ (forall g, In g fs <-> described coords (List.length eqs) false FDif g)
    /\ (forall q, In q sys -> only (List.length eqs) (fun f => described coords (List.length eqs) true FDif f
          \/ (exists i a b, i < List.length eqs /\ a <= b /\ b < List.length coords /\ f = FInvDif i a b) \/ external f)
          (normalised_error (List.length eqs)) (snd q))
    /\ forall (A : RAlg) (E : env A), statistics coords (List.length eqs) E -> error_dynamics eqs E -> mean_dynamics eqs E ->
         closure_holds E closure -> tensor_is coords (List.length eqs) E FDif FInvDif (1 # 2) -> forall q, In q sys -> holds E q.
Proof.
  intros HR Hc Hn HU closure HC. unfold in_diffusion.
  apply (main_in_tensor enum enumD enumC enumF enumU coords eqs HR Hc Hn HU closure FDif FInvDif (1 # 2) (-2) false diffusion_tensor HC);
    [intros i a b j c d [= -> -> ->]; auto|auto|reflexivity].
Qed.
Lemma main_in_aspect enum enumD enumC enumF enumU coords eqs :
  rearrangements enum enumD enumC enumF enumU -> NoDup coords -> coords <> [] -> user_system eqs ->
  forall closure, (forall l v, In (l, v) closure -> only (List.length eqs) (deterministic_parameter aspect_tensor coords (List.length eqs))
                     (normalised_error (List.length eqs)) v) ->
  exists fs sys, in_aspect enum enumD enumC enumF enumU coords eqs closure = Ok sys
    /\ map fst sys = map time_derivative fs /\ NoDup fs
    /\ (forall g, In g fs <-> described coords (List.length eqs) true FAsp g)
    /\ (forall q, In q sys -> only (List.length eqs) (fun f => described coords (List.length eqs) true FAsp f
          \/ (exists i a b, i < List.length eqs /\ a <= b /\ b < List.length coords /\ f = FInvAsp i a b) \/ external f)
          (normalised_error (List.length eqs)) (snd q))
    /\ forall (A : RAlg) (E : env A), statistics coords (List.length eqs) E -> error_dynamics eqs E -> mean_dynamics eqs E ->
         closure_holds E closure -> tensor_is coords (List.length eqs) E FAsp FInvAsp 1 -> forall q, In q sys -> holds E q.
Proof.
  intros HR Hc Hn HU closure HC. unfold in_aspect.
  apply (main_in_tensor enum enumD enumC enumF enumU coords eqs HR Hc Hn HU closure FAsp FInvAsp 1 (-1) true aspect_tensor HC);
    [intros i a b j c d [= -> -> ->]; auto|auto|reflexivity].
Qed.
Lemma main_abort enum enumD enumC enumF enumU coords eqs :
  rearrangements enum enumD enumC enumF enumU -> NoDup coords -> coords <> [] ->
  forall p, averages_random p ->
    (apply_internal_closure enum enumD enumC enumU coords eqs p = Err RuntimeError
       <-> exists l f k, averaged_in l p /\ univariate l f k /\ ~ normalised_error (List.length eqs) f)
    /\ ((forall l f k, averaged_in l p -> univariate l f k -> normalised_error (List.length eqs) f) ->
        exists q, apply_internal_closure enum enumD enumC enumU coords eqs p = Ok q).
Proof. intros (H1 & H2 & H3 & H4 & H5) Hc Hn p. apply abort_iff; assumption. Qed.
Lemma main_no_space enum enumD enumC enumF enumU eqs closure : eqs <> [] ->
  expectation_system enum enumC enumF [] eqs = Err IndexError
  /\ error_system enum enumC enumF [] eqs = Err IndexError
  /\ variance_system enum enumD enumC enumF enumU [] eqs = Err IndexError
  /\ metric_system enum enumD enumC enumF enumU [] eqs = Err IndexError
  /\ in_metric enum enumD enumC enumF enumU [] eqs closure = Err IndexError
  /\ in_diffusion enum enumD enumC enumF enumU [] eqs closure = Err IndexError
  /\ in_aspect enum enumD enumC enumF enumU [] eqs closure = Err IndexError.
Proof.
  intros H. split; [apply no_expectation, H|]. split; [apply no_error, H|]. split; [apply no_variance, H|]. split; [apply no_metric, H|].
  split; [apply no_in_metric, H|]. split; apply no_in_tensor, H.
Qed.
