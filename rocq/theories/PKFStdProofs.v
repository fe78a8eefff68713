From Coq Require Import List Arith ZArith QArith Bool String Permutation Sorted Lia Ring.
From Verif Require Import PyBase PyBaseFacts Reynolds PartialOrderModel TreeModel PKFModel PKFSpec PKFAlg PKFAtoms PKFInv PKFClosure PKFShape PKFMain PKFWords PKFTime PKFTimeSpec PKFExplicit PKFExplicitMain
  PKFStdModel PKFStdSpec.
Import ListNotations.
Close Scope Q_scope.
Close Scope Z_scope.
Open Scope nat_scope.
Open Scope string_scope.
Open Scope list_scope.

Section Values.
  Context {A : RAlg} (E : env A).
  Hypothesis HE : algebraic E.
  Variable n : nat.
  Hypothesis Hstd : std_is n E.
  Add Ring A_ring_std : (c_th A).
  Lemma sjet_sound i w : i < n -> pv E (sjet i w) = dds w (e_sig E i).
  Proof.
    intros Hi. destruct w as [|c w]; cbn [sjet]; [apply (patom_sound E HE)|]. rewrite (pjet_sound E HE), (Hstd i Hi). reflexivity.
  Qed.
  Lemma dds_add w (a b : A) : dds w (cadd a b) = cadd (dds w a) (dds w b).
  Proof. induction w as [|c w IH]; [reflexivity|]. cbn [dds]. rewrite IH, dd_add. reflexivity. Qed.
  Lemma dds_swap w c (a : A) : dds (c :: w) a = dds w (dd c a).
  Proof. induction w as [|d w IH]; [reflexivity|]. cbn [dds] in *. rewrite <- IH. apply dd_comm. Qed.
  Lemma leibniz_sound i w : i < n -> forall a b, pv E (leibniz i w a b) = dds w (cmul (dds a (e_sig E i)) (dds b (e_sig E i))).
  Proof.
    intros Hi. induction w as [|c w IH]; intros a b; cbn [leibniz].
    - rewrite (pmul_sound E HE), !sjet_sound by exact Hi. reflexivity.
    - rewrite (padd_sound E), !IH, !winsert_sound, <- dds_add, dds_swap, dd_mul. reflexivity.
  Qed.
  Lemma std_subs_sound p : (forall c m a i w, In (c, m) p -> In a m -> a = AJet (FVar i) w -> i < n) -> pv E (std_subs p) = pv E p.
  Proof.
    intros Hp. unfold std_subs. rewrite (pv_fold E p). apply (replace_sound E HE std_atom (av E)). intros c m a Hm Ha.
    destruct a as [f w| | | | |]; try apply (patom_sound E HE). destruct f; try apply (patom_sound E HE). cbn [std_atom].
    rewrite leibniz_sound by (eapply Hp; [exact Hm|exact Ha|reflexivity]). cbn [dds av]. rewrite (al_var _ HE). reflexivity.
  Qed.
  Lemma half_iff i (d p : A) :
    (d * 1 = p <-> cq (Qcanon.Q2Qc (1 # 2)) * e_isig E i * d * 1 = cq (Qcanon.Q2Qc (1 # 2)) * (e_isig E i * 1) * p)%ra.
  Proof.
    generalize (al_isig _ HE i), (qq_half2 (A := A)). generalize (e_isig E i) (e_sig E i) (cq (Qcanon.Q2Qc (1 # 2)) : A). intros s g h Hg Hh. split.
    - intros <-. ring.
    - intros H. transitivity ((h + h) * (g * s) * d)%ra; [rewrite Hh, Hg; ring|].
      transitivity ((g + g) * (h * s * d * 1))%ra; [ring|]. rewrite H. transitivity ((h + h) * (g * s) * p)%ra; [ring|]. rewrite Hh, Hg. ring.
  Qed.
End Values.

Lemma std_lhs i : std_subs (time_derivative (FVar i)) = [((2 # 1)%Q, [ASig i; AJet (FStd i) ["t"]])].
Proof.
  unfold std_subs, time_derivative. cbn [map fst snd std_atom leibniz].
  assert (M1 : pmul (sjet i ["t"]) (sjet i []) = [(1%Q, [ASig i; AJet (FStd i) ["t"]])]).
  { unfold sjet, patom, mins. cbn [inverse remove_atom insert_atom pjet pmul fold_right]. unfold pmulm. cbn [fold_right fst snd mmul]. reflexivity. }
  assert (M2 : pmul (sjet i []) (sjet i ["t"]) = [(1%Q, [ASig i; AJet (FStd i) ["t"]])]).
  { unfold sjet, patom, mins. cbn [inverse remove_atom insert_atom pjet pmul fold_right]. unfold pmulm. cbn [fold_right fst snd mmul]. reflexivity. }
  change (winsert "t" []) with ["t"]. rewrite M1, M2. 
  assert (M3 : padd [(1%Q, [ASig i; AJet (FStd i) ["t"]])] [(1%Q, [ASig i; AJet (FStd i) ["t"]])] = [((2#1)%Q, [ASig i; AJet (FStd i) ["t"]])]).
  { unfold padd. cbn [fold_right pins fst snd]. change (Qeq_bool 1 0) with false. cbn iota.
    destruct (list_eq_dec atom_eq_dec [ASig i; AJet (FStd i) ["t"]] [ASig i; AJet (FStd i) ["t"]]) as [_|C]; [|destruct C; reflexivity]. reflexivity. }
  rewrite M3. reflexivity.
Qed.

Section Shape.
  Variables (coords : list string) (n : nat).
  Definition std_good (a : atom) : Prop :=
    match a with
    | AJet f w => (deterministic_parameter no_tensor coords n f /\ (forall i, f <> FVar i) /\ (external f \/ spatial_word coords w))
                  \/ exists i, i < n /\ f = FStd i /\ w <> [] /\ spatial_word coords w
    | AExp w l => spatial_word coords w /\ forall j, In j l -> normalised_error n (fst j) /\ spatial_word coords (snd j)
    | ASig i | AIsig i => i < n
    | _ => True
    end.
  Lemma winsert_not_nil c w : winsert c w <> [].
  Proof. destruct w; cbn; [discriminate|]. destruct (string_lt s c); discriminate. Qed.
  Lemma sjet_good i w : i < n -> spatial coords w -> pall std_good (sjet i w).
  Proof.
    intros Hi Hw. destruct w as [|c w]; cbn [sjet]; [apply patom_all; exact Hi|]. apply pall_atom. right. exists i. split; [exact Hi|]. split; [reflexivity|]. split; [discriminate|apply spatial_word_iff, Hw].
  Qed.
  Lemma leibniz_good i : i < n -> forall w a b, incl w coords -> spatial coords a -> spatial coords b -> pall std_good (leibniz i w a b).
  Proof.
    intros Hi. induction w as [|c w IH]; intros a b Hw Ha Hb; cbn [leibniz]; [apply pmul_all; apply sjet_good; assumption|].
    assert (Hc : In c coords) by (apply Hw; left; reflexivity). assert (Hw' : incl w coords) by (intros x Hx; apply Hw; right; exact Hx).
    apply padd_all; apply IH; auto; apply spatial_insert; assumption.
  Qed.
  Lemma std_subs_good p : only n (deterministic_parameter no_tensor coords n) (normalised_error n) p -> spatial_poly coords p -> pall std_good (std_subs p).
  Proof.
    intros H1 H2. unfold std_subs.
    apply (replace_all (fun a => exists c m, In (c, m) p /\ In a m) std_good std_atom p); [intros c m Hm a Ha; exists c, m; auto|].
    intros a (c & m & Hm & Ha). specialize (H1 c m a Hm Ha). specialize (H2 c m a Hm Ha).
    destruct a as [f w|w l|k| |i|i]; cbn [std_atom]; try (apply patom_all; exact H1).
    - assert (G : (forall i, f <> FVar i) -> pall std_good (patom (AJet f w))) by (intros Hf; apply patom_all; left; auto).
      destruct f; try (apply G; discriminate). clear G. destruct H2 as [(k & d & C)|[_ H2]]; [discriminate|]. apply leibniz_good; [exact (proj1 H1)|exact H2|apply spatial_nil|apply spatial_nil].
    - apply patom_all. destruct H2 as [H2 H3]. split; [exact H2|]. intros j Hj. split; [exact (H1 j Hj)|exact (proj2 (H3 j Hj))].
  Qed.
  Lemma good_only p : pall std_good p -> only n (std_parameter coords n) (normalised_error n) p /\ spatial_poly coords p.
  Proof.
    intros H. split; intros c m a Hm Ha; specialize (H c m Hm a Ha); destruct a as [f w|w l|k| |i|i]; cbn [std_good] in H; try exact I; try exact H.
    - destruct H as [(H1 & H2 & _)|(i & Hi & -> & _)]; [left; auto|right; exists i; auto].
    - intros j Hj. exact (proj1 (proj2 H j Hj)).
    - destruct H as [(_ & _ & H)|(i & Hi & -> & _ & H)]; [exact H|right; exact H].
    - split; [exact (proj1 H)|]. intros j Hj. destruct (proj2 H j Hj) as [(i & _ & ->) H']. split; [reflexivity|exact H'].
  Qed.
End Shape.

Section Main.
  Variables (enum : list mi -> list mi) (enumD : tdict -> tdict) (enumC : edict -> edict)
    (enumF : list (fn * poly) -> list (fn * poly)) (enumU : list fn -> list fn) (enumA : list atom -> list atom).
  Variables (coords : list string) (eqs : list poly).
  Hypothesis HR : rearrangements enum enumD enumC enumF enumU.
  Hypothesis HA : forall l, Permutation (enumA l) l.
  Hypothesis Hcoords : NoDup coords.
  Hypothesis Hne : coords <> [].
  Hypothesis Ht : ~ In "t" coords.
  Hypothesis HU : user_system eqs.
  Hypothesis HS : Forall (spatial_poly coords) eqs.
  Notation n := (List.length eqs).

  Lemma std_derivatives i : derivative_atoms [((2 # 1)%Q, [ASig i; AJet (FStd i) ["t"]])] = [AJet (FStd i) ["t"]].
  Proof. reflexivity. Qed.
  Lemma std_equation_value i r : i < n -> only n (deterministic_parameter no_tensor coords n) (normalised_error n) r -> spatial_poly coords r ->
    std_equation enumA (time_derivative (FVar i), r) = Ok (time_derivative (FStd i), pmulm (1 # 2) [AIsig i] (std_subs r)).
  Proof.
    intros Hi H1 H2. unfold std_equation. cbn [fst snd]. rewrite std_lhs, std_derivatives.
    assert (E : enumA [AJet (FStd i) ["t"]] = [AJet (FStd i) ["t"]]) by (apply Permutation_length_1_inv, Permutation_sym, HA). rewrite E. cbn [last_opt].
    unfold isolate. cbn [fst snd remove_atom]. destruct (atom_eq_dec (AJet (FStd i) ["t"]) (ASig i)) as [C|_]; [discriminate|].
    destruct (atom_eq_dec (AJet (FStd i) ["t"]) (AJet (FStd i) ["t"])) as [_|C]; [|destruct C; reflexivity].
    rewrite (proj2 (lmem_false atom_eq_dec (AJet (FStd i) ["t"]) (flat_map snd (std_subs r)))); [reflexivity|].
    intros Hin. apply in_flat_map in Hin. destruct Hin as ([c m] & Hm & Ha). destruct (good_only coords n _ (std_subs_good coords n r H1 H2)) as [_ G].
    specialize (G c m _ Hm Ha). destruct G as [(k & d & C)|[_ G]]; [discriminate|]. apply Ht, G. left. reflexivity.
  Qed.
  Lemma std_mapM : forall l s, map fst s = map time_derivative (map FVar l) -> (forall i, In i l -> i < n) ->
    (forall q, In q s -> only n (deterministic_parameter no_tensor coords n) (normalised_error n) (snd q) /\ spatial_poly coords (snd q)) ->
    mapM (std_equation enumA) s = Ok (map (fun iq => (time_derivative (FStd (fst iq)), pmulm (1 # 2) [AIsig (fst iq)] (std_subs (snd (snd iq))))) (combine l s)).
  Proof.
    induction l as [|i l IH]; intros s Hs Hl Hq; destruct s as [|[a r] s]; try discriminate; [reflexivity|]. cbn [map fst] in Hs. injection Hs as Ha Hs. subst a.
    cbn [mapM combine map fst snd]. destruct (Hq _ (or_introl eq_refl)) as [Q1 Q2]. rewrite std_equation_value; auto; [|apply Hl; left; reflexivity]. cbn [bind].
    rewrite (IH s Hs); [reflexivity|intros; apply Hl; right; assumption|intros; apply Hq; right; assumption].
  Qed.
  Lemma std_half {A : RAlg} (E : env A) i r : algebraic E -> std_is n E -> i < n ->
    only n (deterministic_parameter no_tensor coords n) (normalised_error n) r ->
    holds E (time_derivative (FVar i), r) <-> holds E (time_derivative (FStd i), pmulm (1 # 2) [AIsig i] (std_subs r)).
  Proof.
    intros HE Hstd Hi O. unfold holds. cbn [fst snd]. rewrite (pmulm_sound E HE), (std_subs_sound E HE n Hstd).
    2:{ intros c m a k w Hm Ha ->. exact (proj1 (O c m _ Hm Ha)). }
    unfold time_derivative. rewrite !(p1_sound E). cbn [mv fold_right av dds]. rewrite (Hstd i Hi), (dd_sig E HE "t" i). apply half_iff, HE.
  Qed.
  Lemma combine_fst : forall (l : list nat) (s : list pequation), map fst s = map time_derivative (map FVar l) ->
    forall i q, In (i, q) (combine l s) -> fst q = time_derivative (FVar i).
  Proof.
    induction l as [|k l IH]; intros s L i q Hq; [destruct Hq|]. destruct s as [|q1 s]; [destruct Hq|].
    cbn [combine map] in *. injection L as L1 L. destruct Hq as [Hq|Hq]; [injection Hq as -> ->; exact L1|exact (IH s L i q Hq)].
  Qed.
  Lemma Forall2_combine {X Y Z} (P : Y -> Z -> Prop) (f : X * Y -> Z) : forall (l : list X) (s : list Y), List.length l = List.length s ->
    (forall x y, In (x, y) (combine l s) -> P y (f (x, y))) -> Forall2 P s (map f (combine l s)).
  Proof.
    induction l as [|x l IH]; intros [|y s] H HP; try discriminate; cbn [combine map]; constructor; [apply HP; left; reflexivity|].
    apply IH; [injection H; auto|]. intros; apply HP; right; assumption.
  Qed.
  Lemma main_std : exists v sys, variance_system enum enumD enumC enumF enumU coords eqs = Ok v
    /\ std_system enum enumD enumC enumF enumU enumA coords eqs = Ok sys
    /\ map fst sys = map time_derivative (map FStd (seq 0 n))
    /\ (forall q, In q sys -> only n (std_parameter coords n) (normalised_error n) (snd q) /\ spatial_poly coords (snd q))
    /\ forall (A : RAlg) (E : env A), statistics coords n E -> std_is n E ->
         Forall2 (fun q q' => holds E q <-> holds E q') v sys.
  Proof.
    destruct (main_variance enum enumD enumC enumF enumU coords eqs HR Hcoords Hne HU) as (v & Hv & L & O & X).
    destruct (explicit_parameters enum enumD enumC enumF enumU coords eqs HR Hcoords Hne Ht HU HS) as (_ & v' & _ & _ & _ & Hv' & _ & _ & _ & S & _ & _).
    rewrite Hv in Hv'. apply Ok_inj in Hv'. subst v'. unfold std_system. rewrite Hv. cbn [bind].
    assert (Hl : forall i, In i (seq 0 n) -> i < n) by (intros i Hi; apply in_seq in Hi; lia).
    rewrite (std_mapM (seq 0 n) v L Hl) by (intros q Hq; split; [apply O, Hq|apply S, Hq]). exists v. eexists. split; [reflexivity|]. split; [reflexivity|].
    assert (Len : List.length (seq 0 n) = List.length v) by (apply (f_equal (@List.length _)) in L; rewrite !map_length in L; symmetry; exact L).
    split; [|split].
    - rewrite map_map. cbn [fst]. rewrite map_map. revert Len. clear. generalize (seq 0 n). intros l. revert v. induction l as [|i l IH]; intros v H; [reflexivity|].
      destruct v; [discriminate|]. cbn [combine map fst]. f_equal. apply IH. injection H. auto.
    - intros q Hq. apply in_map_iff in Hq. destruct Hq as ([i q0] & <- & Hq). cbn [fst snd]. pose proof (in_combine_l _ _ _ _ Hq) as Hi. apply in_combine_r in Hq.
      apply good_only, pmulm_all; [intros a [<-|[]]; exact (Hl i Hi)|]. apply std_subs_good; [apply O, Hq|apply S, Hq].
    - intros A E HSt Hstd. apply Forall2_combine; [exact Len|]. intros i q Hq. pose proof (combine_fst _ _ L i q Hq) as Hf.
      pose proof (in_combine_l _ _ _ _ Hq) as Hi. apply in_combine_r in Hq. destruct q as [a r]. cbn [fst snd] in *. subst a.
      exact (std_half E i r (st_algebraic E coords n HSt) Hstd (Hl i Hi) (O _ Hq)).
  Qed.
  Lemma main_std_exact : exists sys, std_system enum enumD enumC enumF enumU enumA coords eqs = Ok sys
    /\ map fst sys = map time_derivative (map FStd (seq 0 n))
    /\ (forall q, In q sys -> only n (std_parameter coords n) (normalised_error n) (snd q) /\ spatial_poly coords (snd q))
    /\ forall (A : RAlg) (E : env A), statistics coords n E -> error_dynamics eqs E -> std_is n E -> forall q, In q sys -> holds E q.
  Proof.
    destruct main_std as (v & sys & Hv & Hs & H1 & H2 & H3). exists sys. split; [exact Hs|]. split; [exact H1|]. split; [exact H2|].
    intros A E HSt HD Hstd q' Hq'. destruct (main_variance enum enumD enumC enumF enumU coords eqs HR Hcoords Hne HU) as (v' & Hv' & _ & _ & X).
    rewrite Hv in Hv'. apply Ok_inj in Hv'. subst v'. specialize (H3 A E HSt Hstd). clear - H3 X HSt HD Hq'. specialize (X A E HSt HD). revert X Hq'.
    induction H3 as [|q s v sys Hq H IH]; intros X Hq'; [destruct Hq'|]. destruct Hq' as [<-|Hq']; [apply Hq, X; left; reflexivity|].
    apply IH; [intros; apply X; right; assumption|exact Hq'].
  Qed.
End Main.
