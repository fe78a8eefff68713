(** Univariate terms, aborted closures, uniqueness of the left-hand sides, systems without
    space, linearity of the tangent-linear dynamics. *)
From Coq Require Import List Arith Ring ZArith NArith QArith Qcanon Bool String Ascii Permutation Lia.
From Verif Require Import PyBase PyBaseFacts PartialOrderModel PartialOrderSpec PartialOrderProofs TreeModel TreeSpec TreeProofs
  Reynolds PKFModel PKFSpec PKFAlg PKFAtoms PKFTaylor PKFClosure PKFProofs PKFTensor PKFInv PKFShape TreeMore TreeProps.
Import ListNotations.
Close Scope Q_scope.
Close Scope Qc_scope.
Close Scope Z_scope.
Close Scope N_scope.
Open Scope nat_scope.
Open Scope string_scope.
Open Scope list_scope.

(** *** the order on atoms decides equality of random factors *)
Lemma nlt_total a : forall b, nlt a b = false -> nlt b a = false -> a = b.
Proof.
  induction a as [|x a IH]; intros [|y b]; cbn; try discriminate; [reflexivity|].
  destruct (N.ltb_spec x y); [discriminate|]. destruct (N.ltb_spec y x); [discriminate|].
  replace y with x by lia. intros H1 H2. f_equal. apply IH; assumption.
Qed.
Lemma nlt_asym a : forall b, nlt a b = true -> nlt b a = false.
Proof.
  induction a as [|x a IH]; intros [|y b]; cbn; try discriminate; [reflexivity|].
  destruct (N.ltb_spec x y); [destruct (N.ltb_spec y x); [lia|reflexivity]|]. destruct (N.ltb_spec y x); [discriminate|]. apply IH.
Qed.
Lemma ascii_codes a : forall b, map N_of_ascii a = map N_of_ascii b -> a = b.
Proof.
  induction a as [|x a IH]; intros [|y b] H; try discriminate; [reflexivity|]. cbn in H. injection H as H1 H2.
  f_equal; [|apply IH, H2]. rewrite <- (ascii_N_embedding x), H1. apply ascii_N_embedding.
Qed.
Lemma app_split {X} (a : list X) : forall b c d, a ++ b = c ++ d -> List.length a = List.length c -> a = c /\ b = d.
Proof.
  induction a as [|x a IH]; intros b [|y c] d H Hl; try discriminate; [auto|]. cbn in H. injection H as -> H.
  destruct (IH b c d H) as [-> ->]; [injection Hl as Hl; exact Hl|]. auto.
Qed.
Lemma codes_prefix w : forall w' r r', List.length w = List.length w' -> flat_map scode w ++ r = flat_map scode w' ++ r' -> w = w'.
Proof.
  induction w as [|s w IH]; intros [|s' w'] r r' Hl H; try discriminate; [reflexivity|]. cbn [flat_map] in H.
  rewrite <- !app_assoc in H. unfold scode at 1 3 in H. cbn [app] in H. injection H as H1 H2.
  apply Nnat.Nat2N.inj in H1.
  assert (L : forall s, List.length (map N_of_ascii (list_ascii_of_string s)) = String.length s).
  { intros x. rewrite map_length. clear. induction x; [reflexivity|cbn; congruence]. }
  assert (K : map N_of_ascii (list_ascii_of_string s) = map N_of_ascii (list_ascii_of_string s') /\ flat_map scode w ++ r = flat_map scode w' ++ r').
  { apply app_split in H2; [exact H2|]. rewrite !L. exact H1. }
  destruct K as [K1 K2]. apply ascii_codes in K1. f_equal.
  - rewrite <- (string_of_list_ascii_of_string s), K1. apply string_of_list_ascii_of_string.
  - apply (IH _ r r'); [injection Hl as Hl; exact Hl|exact K2].
Qed.

Lemma jet_code f w w' : acode (AJet f w) = acode (AJet f w') -> w = w'.
Proof.
  cbn [acode]. unfold jcode. cbn [fst snd]. intros H. injection H as H. apply app_inv_head in H. injection H as H1 H2.
  apply Nnat.Nat2N.inj in H1. apply (codes_prefix w w' [] []); [exact H1|]. rewrite H2. reflexivity.
Qed.
Lemma jkey_sym f w w' : is_random f = true -> jkey [(f, w); (f, w')] = jkey [(f, w'); (f, w)].
Proof.
  intros Hr. unfold jkey, mmul. cbn [map fold_right fst snd].
  unfold mins. cbn [inverse insert_atom].
  destruct (atom_lt (AJet f w') (AJet f w)) eqn:H1, (atom_lt (AJet f w) (AJet f w')) eqn:H2; try reflexivity.
  - unfold atom_lt in *. apply nlt_asym in H1. congruence.
  - unfold atom_lt in *. rewrite (jet_code f w w' (nlt_total _ _ H2 H1)). reflexivity.
Qed.
Lemma jkey_pair f w w' : is_random f = true ->
  jkey [(f, w); (f, w')] = [(f, w); (f, w')] \/ jkey [(f, w); (f, w')] = [(f, w'); (f, w)].
Proof.
  intros Hr. pose proof (jkey2_perm f f w w' Hr Hr) as H. destruct (jkey [(f, w); (f, w')]) as [|a [|b [|c l]]].
  - apply Permutation_length in H. discriminate. - apply Permutation_length in H. discriminate.
  - apply perm_pair in H. destruct H as [[-> ->]|[-> ->]]; auto.
  - apply Permutation_length in H. discriminate.
Qed.
Lemma jkey_idem f w w' : is_random f = true -> jkey [(f, w); (f, w')] = [(f, w); (f, w')] \/ jkey [(f, w'); (f, w)] = [(f, w'); (f, w)].
Proof. intros Hr. destruct (jkey_pair f w w' Hr) as [H|H]; [auto|]. right. rewrite <- jkey_sym by exact Hr. exact H. Qed.

(** is_univariate recognises exactly the univariate terms, with their degree *)
Lemma univariate_sorted f w w' : is_random f = true -> 0 < List.length w + List.length w' ->
  jkey [(f, w); (f, w')] = [(f, w); (f, w')] ->
  is_univariate [(f, w); (f, w')] = Some (f, List.length w + List.length w').
Proof.
  intros Hr Hd HJ. unfold is_univariate.
  assert (N1 : forall X (dec : forall a b : X, {a = b} + {a <> b}) a, nodup dec [a] = [a]).
  { intros X dec a. cbn [nodup]. destruct (in_dec dec a []) as [[]|_]. reflexivity. }
  assert (N2 : forall X (dec : forall a b : X, {a = b} + {a <> b}) a, nodup dec [a; a] = [a]).
  { intros X dec a. cbn [nodup]. destruct (in_dec dec a [a]) as [_|Hn]; [apply (N1 X dec)|]. destruct Hn; left; reflexivity. }
  assert (N3 : forall X (dec : forall a b : X, {a = b} + {a <> b}) a b, a <> b -> nodup dec [a; b] = [a; b]).
  { intros X dec a b Hab. cbn [nodup]. destruct (in_dec dec a [b]) as [[H|[]]|_]; [congruence|]. destruct (in_dec dec b []) as [[]|_]. reflexivity. }
  destruct w as [|c w]; [|destruct w' as [|c' w']].
  - destruct w' as [|c' w']; [cbn in Hd; lia|]. cbn [filter snd]. rewrite N1. cbn [map fst]. rewrite N1.
    destruct (jets_eq_dec [(f, []); (f, c' :: w')] (jkey [(f, []); (f, c' :: w')])) as [_|Hn]; [reflexivity|]. destruct Hn. symmetry; exact HJ.
  - cbn [filter snd]. rewrite N1. cbn [map fst]. rewrite N1.
    destruct (jets_eq_dec [(f, c :: w); (f, [])] (jkey [(f, []); (f, c :: w)])) as [_|Hn]; [f_equal; f_equal; cbn; lia|].
    destruct Hn. rewrite jkey_sym by exact Hr. symmetry; exact HJ.
  - cbn [filter snd].
    destruct (list_eq_dec string_dec (c :: w) (c' :: w')) as [He|Hne].
    + rewrite He in *. rewrite N2. cbn [map fst]. rewrite N1. set (d := (f, c' :: w')).
      destruct (jets_eq_dec [d; d] (jkey [(f, []); d])) as [E|_].
      { exfalso. destruct (jkey_pair f [] (c' :: w') Hr) as [K|K]; unfold d in E; rewrite K in E; congruence. }
      destruct (jets_eq_dec [d; d] (jkey [d; d])) as [_|Hn]; [f_equal; f_equal; cbn; lia|]. destruct Hn. symmetry. exact HJ.
    + rewrite N3 by congruence. cbn [map fst]. rewrite N2. set (d := (f, c :: w)). set (d' := (f, c' :: w')).
      destruct (jets_eq_dec [d; d'] (jkey [d; d'])) as [_|Hn]; [reflexivity|]. destruct Hn. symmetry. exact HJ.
Qed.
Lemma univariate_iff l f k : (forall j, In j l -> is_random (fst j) = true) ->
  is_univariate l = Some (f, k) <-> univariate l f k.
Proof.
  intros HR. split.
  - intros H. assert (Hf : is_random f = true).
    { apply univariate_in in H. apply in_map_iff in H. destruct H as (j & <- & Hj). exact (HR j Hj). }
    unfold is_univariate in H.
    set (ds := nodup jet_eq_dec _) in *.
    assert (Hds : forall d, In d ds -> 0 < List.length (snd d)).
    { intros d Hd. unfold ds in Hd. apply nodup_In, filter_In in Hd. destruct Hd as [_ Hd]. destruct (snd d); [discriminate|cbn; lia]. }
    assert (Hfs : forall d g, In d ds -> nodup fn_eq_dec (map fst ds) = [g] -> fst d = g).
    { intros d g Hd Hg. assert (In (fst d) [g]) by (rewrite <- Hg; apply nodup_In, in_map, Hd). destruct H0 as [H0|[]]. symmetry; exact H0. }
    destruct (nodup fn_eq_dec (map fst ds)) as [|g [|]] eqn:Hfn; try discriminate.
    destruct ds as [|d1 [|d2 [|]]]; try discriminate.
    + pose proof (Hfs d1 g (or_introl eq_refl) eq_refl) as H1. pose proof (Hds d1 (or_introl eq_refl)) as H2. destruct d1 as [g' w]. cbn [fst snd] in *. subst g'.
      destruct (jets_eq_dec _ _) as [->|_].
      * injection H as <- <-. exists [], w. repeat split; auto.
      * destruct (jets_eq_dec _ _) as [->|_]; [|discriminate]. injection H as <- <-. exists w, w. repeat split; auto; lia.
    + pose proof (Hfs d1 g (or_introl eq_refl) eq_refl) as H1. pose proof (Hds d1 (or_introl eq_refl)) as H2.
      pose proof (Hfs d2 g (or_intror (or_introl eq_refl)) eq_refl) as H3. destruct d1 as [g1 w1], d2 as [g2 w2]. cbn [fst snd] in *. subst g1 g2.
      destruct (jets_eq_dec _ _) as [->|_]; [|discriminate]. injection H as <- <-. exists w1, w2. repeat split; auto; lia.
  - intros (w & w' & -> & Hf & -> & Hd). destruct (jkey_pair f w w' Hf) as [H|H]; rewrite H.
    + apply univariate_sorted; assumption.
    + rewrite Nat.add_comm. apply univariate_sorted; [exact Hf|lia|]. rewrite jkey_sym by exact Hf. exact H.
Qed.

(** *** which expressions abort the closure *)
Section Abort.
  Variables (enum : list mi -> list mi) (enumD : tdict -> tdict) (enumC : edict -> edict)
            (enumF : list (fn * poly) -> list (fn * poly)) (enumU : list fn -> list fn).
  Variables (coords : list string) (eqs : list poly).
  Hypothesis Henum : forall l, Permutation (enum l) l.
  Hypothesis HenumD : forall l, Permutation (enumD l) l.
  Hypothesis HenumU : forall l, Permutation (enumU l) l.
  Hypothesis Hcoords : NoDup coords.
  Hypothesis Hne : coords <> [].
  Notation n := (List.length eqs).

  Lemma averaged_iff p l : averaged_in l p <-> In l (exp_atoms p).
  Proof. rewrite exp_atoms_in. unfold averaged_in. reflexivity. Qed.

  Lemma field_of_iff f i : field_of eqs f = Some i <-> i < n /\ f = FEps i.
  Proof.
    unfold field_of, nfields. destruct f; try (split; [discriminate|intros [_ H]; discriminate]).
    destruct (Nat.ltb_spec i0 n); split; try discriminate; [intros [= <-]; auto|intros [_ [= <-]]; reflexivity|intros [H1 [= <-]]; lia].
  Qed.
  Lemma closure_total : exists cl, internal_closure enum coords eqs = Ok cl.
  Proof.
    unfold internal_closure.
    destruct (mapM_total (field_closure enum coords) (fields eqs)) as (ds & ->).
    { intros i Hi. apply fields_in in Hi. destruct (field_closure_ok enum no_tensor coords eqs Henum Hne i Hi) as (d & H & _). exists d; exact H. }
    cbn [bind]. eexists; reflexivity.
  Qed.
  Lemma tree_total cl i k : exists d, closed_tree enum enumD enumC coords cl i k = Ok d.
  Proof.
    unfold closed_tree. destruct (C39_complete enum enumD true coords Henum HenumD Hcoords Hne [] k) as (rules & HR & _).
    change (tree_calls enum enumD true coords tree_init []) with tree_init in HR. rewrite HR. cbn [bind]. eexists; reflexivity.
  Qed.

  Lemma abort_iff p : averages_random p ->
    (apply_internal_closure enum enumD enumC enumU coords eqs p = Err RuntimeError
       <-> exists l f k, averaged_in l p /\ univariate l f k /\ ~ normalised_error n f)
    /\ ((forall l f k, averaged_in l p -> univariate l f k -> normalised_error n f) ->
        exists q, apply_internal_closure enum enumD enumC enumU coords eqs p = Ok q).
  Proof.
    intros HR. destruct closure_total as (cl & Hcl). unfold apply_internal_closure. rewrite Hcl. cbn [bind].
    assert (U : forall f, In f (dkeys (check_univariate p)) <-> exists l k, averaged_in l p /\ univariate l f k).
    { intros f. rewrite check_keys. split.
      - intros (l & k & Hl & Hu). apply averaged_iff in Hl. exists l, k. split; [exact Hl|]. apply univariate_iff; [|exact Hu].
        intros j Hj. destruct Hl as (c & m & w & H1 & H2). exact (HR c m w l j H1 H2 Hj).
      - intros (l & k & Hl & Hu). exists l, k. split; [apply averaged_iff, Hl|]. apply univariate_iff; [|exact Hu].
        intros j Hj. destruct Hl as (c & m & w & H1 & H2). exact (HR c m w l j H1 H2 Hj). }
    assert (D : forall f, field_of eqs f = None <-> ~ normalised_error n f).
    { intros f. destruct (field_of eqs f) as [i|] eqn:Hf.
      - split; [discriminate|]. intros H. destruct H. exists i. apply field_of_iff, Hf.
      - split; [|reflexivity]. intros _ (i & H). apply field_of_iff in H. congruence. }
    destruct (existsb _ _) eqn:Hex.
    - apply existsb_exists in Hex. destruct Hex as (f & H1 & H2). apply U in H1. destruct H1 as (l & k & H1 & H3).
      assert (Hf : ~ normalised_error n f) by (apply D; destruct (field_of eqs f); [discriminate|reflexivity]).
      split; [split; [intros _; exists l, f, k; auto|reflexivity]|]. intros H. destruct (Hf (H l f k H1 H3)).
    - assert (Hall : forall f, In f (dkeys (check_univariate p)) -> exists i, field_of eqs f = Some i).
      { intros f Hf. destruct (field_of eqs f) as [i|] eqn:E; [exists i; reflexivity|].
        assert (existsb (fun f => match field_of eqs f with None => true | Some _ => false end) (dkeys (check_univariate p)) = true)
          by (apply existsb_exists; exists f; rewrite E; auto). congruence. }
      set (step := fun (p0 : poly) (f : fn) => _).
      assert (G : forall fs p0, (forall f, In f fs -> In f (dkeys (check_univariate p))) -> exists q, foldM step p0 fs = Ok q).
      { induction fs as [|f fs IH]; intros p0 Hfs; [exists p0; reflexivity|]. cbn [foldM].
        assert (Hk := Hfs f (or_introl eq_refl)). destruct (Hall f Hk) as (i & Hfi).
        unfold step at 1. rewrite Hfi. destruct (dget_key_ex fn_eq_dec f _ Hk) as (ns & Hns). unfold dgetE. rewrite Hns. cbn [bind].
        destruct (tree_total cl i (fold_right Nat.max 0 ns)) as (t & Ht). rewrite Ht. cbn [bind].
        apply IH. intros g Hg; apply Hfs; right; exact Hg. }
      destruct (G (enumU (dkeys (check_univariate p))) p) as (q & Hq).
      { intros f H. apply (Permutation_in _ (HenumU _)), H. }
      rewrite Hq. cbn [bind]. split; [|intros _; eexists; reflexivity]. split; [discriminate|].
      intros (l & f & k & H1 & H2 & H3). exfalso. apply H3. apply D in H3.
      destruct (Hall f) as (i & Hi); [apply U; exists l, k; auto|]. congruence.
  Qed.
End Abort.

(** *** no repetition among the left-hand sides *)
Lemma NoDup_join {X} (a b : list X) : NoDup a -> NoDup b -> (forall x, In x a -> In x b -> False) -> NoDup (a ++ b).
Proof.
  induction a as [|x a IH]; intros Ha Hb Hd; cbn [app]; [exact Hb|]. apply NoDup_cons_iff in Ha. destruct Ha as [Hx Ha]. constructor.
  - intros H. apply in_app_iff in H. destruct H as [H|H]; [exact (Hx H)|]. exact (Hd x (or_introl eq_refl) H).
  - apply IH; [exact Ha|exact Hb|]. intros y Hy. apply Hd. right; exact Hy.
Qed.
Lemma NoDup_flat_map {X Y} (f : X -> list Y) l : NoDup l -> (forall x, In x l -> NoDup (f x)) ->
  (forall x y z, In x l -> In y l -> In z (f x) -> In z (f y) -> x = y) -> NoDup (flat_map f l).
Proof.
  induction l as [|x l IH]; intros Hl Hf Hd; cbn [flat_map]; [constructor|].
  apply NoDup_cons_iff in Hl. destruct Hl as [Hx Hl]. apply NoDup_join.
  - apply Hf. left; reflexivity.
  - apply IH; [exact Hl|intros; apply Hf; right; assumption|intros a b z Ha Hb; apply Hd; right; assumption].
  - intros z Hz Hz'. apply in_flat_map in Hz'. destruct Hz' as (y & Hy & Hz'). apply Hx.
    rewrite (Hd x y z); [exact Hy|left; reflexivity|right; exact Hy|exact Hz|exact Hz'].
Qed.
Lemma NoDup_map_inj {X Y} (f : X -> Y) l : (forall a b, In a l -> In b l -> f a = f b -> a = b) -> NoDup l -> NoDup (map f l).
Proof.
  induction l as [|x l IH]; intros Hf Hl; cbn [map]; [constructor|]. apply NoDup_cons_iff in Hl. destruct Hl as [Hx Hl]. constructor.
  - intros H. apply in_map_iff in H. destruct H as (y & Hy & Hy'). apply Hx. rewrite (Hf x y); [exact Hy'|left; reflexivity|right; exact Hy'|congruence].
  - apply IH; [intros a b Ha Hb; apply Hf; right; assumption|exact Hl].
Qed.
Lemma NoDup_fields eqs : NoDup (fields eqs).
Proof. apply seq_NoDup. Qed.
Lemma NoDup_couples eqs : NoDup (couples eqs).
Proof.
  unfold couples. apply NoDup_flat_map; [apply NoDup_fields|..].
  - intros i _. apply NoDup_flat_map; [apply NoDup_fields|..].
    + intros j _. destruct (Nat.ltb i j); repeat constructor; intros [].
    + intros j k z _ _. destruct (Nat.ltb i j); [|intros []]. destruct (Nat.ltb i k); [|intros _ []]. intros [<-|[]] [H|[]]. congruence.
  - intros i i' z _ _ H H'. apply in_flat_map in H. destruct H as (j & _ & H). apply in_flat_map in H'. destruct H' as (j' & _ & H').
    destruct (Nat.ltb i j); [|destruct H]. destruct (Nat.ltb i' j'); [|destruct H']. destruct H as [<-|[]]. destruct H' as [H'|[]]. congruence.
Qed.
Lemma NoDup_indices coords eqs : NoDup (metric_indices coords eqs).
Proof.
  unfold metric_indices. apply NoDup_flat_map; [apply NoDup_fields|..].
  - intros i _. apply NoDup_map_inj; [intros a b _ _ H; congruence|]. unfold upper. apply NoDup_flat_map; [apply seq_NoDup|..].
    + intros a _. apply NoDup_map_inj; [intros x y _ _ H; congruence|apply seq_NoDup].
    + intros a a' z _ _ H H'. apply in_map_iff in H, H'. destruct H as (x & <- & _), H' as (y & H' & _). congruence.
  - intros i i' z _ _ H H'. apply in_map_iff in H, H'. destruct H as (x & <- & _), H' as (y & H' & _). congruence.
Qed.

Definition described_list coords eqs (cov : bool) (f : nat -> nat -> nat -> fn) : list fn :=
  map FField (fields eqs) ++ map FVar (fields eqs)
  ++ (if cov then map (fun ij => FCov (fst ij) (snd ij)) (couples eqs) else [])
  ++ map (fun iab => f (fst iab) (fst (snd iab)) (snd (snd iab))) (metric_indices coords eqs).
Lemma described_in coords eqs cov f g : In g (described_list coords eqs cov f) <-> described coords (List.length eqs) cov f g.
Proof.
  unfold described_list, described. rewrite !in_app_iff, !in_map_iff.
  assert (K1 : forall (F : nat -> fn), (exists x, F x = g /\ In x (fields eqs)) <-> exists i, i < List.length eqs /\ g = F i).
  { intros F. split; intros (i & H1 & H2); exists i; [apply fields_in in H2; split; [exact H2|congruence]|]. split; [congruence|apply fields_in, H1]. }
  rewrite !K1.
  assert (K2 : In g (if cov then map (fun ij => FCov (fst ij) (snd ij)) (couples eqs) else [])
               <-> cov = true /\ exists i j, i < j /\ j < List.length eqs /\ g = FCov i j).
  { destruct cov; [|split; [intros []|intros [H _]; discriminate]]. rewrite in_map_iff. split.
    - intros ([i j] & <- & H). apply couples_in in H. split; [reflexivity|]. exists i, j. cbn [fst snd]. tauto.
    - intros (_ & i & j & H1 & H2 & ->). exists (i, j). split; [reflexivity|]. apply couples_in; auto. }
  rewrite K2.
  assert (K3 : (exists x, f (fst x) (fst (snd x)) (snd (snd x)) = g /\ In x (metric_indices coords eqs))
               <-> exists i a b, i < List.length eqs /\ a <= b /\ b < List.length coords /\ g = f i a b).
  { split.
    - intros ([i [a b]] & <- & H). apply indices_in in H. exists i, a, b. cbn [fst snd]. tauto.
    - intros (i & a & b & H1 & H2 & H3 & ->). exists (i, (a, b)). split; [reflexivity|]. apply indices_in; auto. }
  rewrite K3. reflexivity.
Qed.
Lemma described_nodup coords eqs cov f :
  (forall i a b j c d, f i a b = f j c d -> i = j /\ a = c /\ b = d) ->
  (forall i a b, match f i a b with FField _ | FVar _ | FCov _ _ => False | _ => True end) ->
  NoDup (described_list coords eqs cov f).
Proof.
  intros Hi Hk. unfold described_list.
  repeat apply NoDup_join.
  - apply NoDup_map_inj; [intros a b _ _ [= H]; exact H|apply NoDup_fields].
  - apply NoDup_map_inj; [intros a b _ _ [= H]; exact H|apply NoDup_fields].
  - destruct cov; [|constructor]. apply NoDup_map_inj; [|apply NoDup_couples]. intros [a b] [c d] _ _ [= H1 H2]. cbn in *. congruence.
  - apply NoDup_map_inj; [|apply NoDup_indices]. intros [i [a b]] [j [c d]] _ _ H. cbn [fst snd] in H. apply Hi in H. destruct H as (-> & -> & ->). reflexivity.
  - intros g H H'. assert (exists i j, g = FCov i j) as (i & j & ->).
    { destruct cov; [|destruct H]. apply in_map_iff in H. destruct H as ([i j] & <- & _). exists i, j. reflexivity. }
    apply in_map_iff in H'. destruct H' as ([k [a b]] & H' & _). cbn [fst snd] in H'. specialize (Hk k a b). rewrite H' in Hk. exact Hk.
  - intros g H H'. apply in_map_iff in H. destruct H as (i & <- & _). apply in_app_iff in H'. destruct H' as [H'|H'].
    + destruct cov; [|destruct H']. apply in_map_iff in H'. destruct H' as (x & H' & _). discriminate.
    + apply in_map_iff in H'. destruct H' as ([k [a b]] & H' & _). cbn [fst snd] in H'. specialize (Hk k a b). rewrite H' in Hk. exact Hk.
  - intros g H H'. apply in_map_iff in H. destruct H as (i & <- & _). rewrite !in_app_iff in H'. destruct H' as [H'|[H'|H']].
    + apply in_map_iff in H'. destruct H' as (x & H' & _). discriminate.
    + destruct cov; [|destruct H']. apply in_map_iff in H'. destruct H' as (x & H' & _). discriminate.
    + apply in_map_iff in H'. destruct H' as ([k [a b]] & H' & _). cbn [fst snd] in H'. specialize (Hk k a b). rewrite H' in Hk. exact Hk.
Qed.

(** *** without space nothing is computed *)
Section NoSpace.
  Variables (enum : list mi -> list mi) (enumD : tdict -> tdict) (enumC : edict -> edict)
            (enumF : list (fn * poly) -> list (fn * poly)) (enumU : list fn -> list fn).
  Variables (eqs : list poly).
  Hypothesis Hne : eqs <> [].
  Lemma no_internal : internal_closure enum [] eqs = Err IndexError.
  Proof. destruct eqs; [destruct (Hne eq_refl)|]. reflexivity. Qed.
  Lemma no_expectation : expectation_system enum enumC enumF [] eqs = Err IndexError.
  Proof. unfold expectation_system. rewrite no_internal. reflexivity. Qed.
  Lemma no_error : error_system enum enumC enumF [] eqs = Err IndexError.
  Proof. unfold error_system, tl_expectation_system. rewrite no_internal. reflexivity. Qed.
  Lemma no_variance : variance_system enum enumD enumC enumF enumU [] eqs = Err IndexError.
  Proof. unfold variance_system. rewrite no_error. reflexivity. Qed.
  Lemma no_epsilon : epsilon_system enum enumD enumC enumF enumU [] eqs = Err IndexError.
  Proof. unfold epsilon_system. rewrite no_error. reflexivity. Qed.
  Lemma no_metric : metric_system enum enumD enumC enumF enumU [] eqs = Err IndexError.
  Proof. unfold metric_system. rewrite no_epsilon. reflexivity. Qed.
  Lemma no_in_metric cl : in_metric enum enumD enumC enumF enumU [] eqs cl = Err IndexError.
  Proof. unfold in_metric. rewrite no_expectation. reflexivity. Qed.
  Lemma no_in_tensor cl t i s f c : in_tensor enum enumD enumC enumF enumU [] eqs cl t i s f c = Err IndexError.
  Proof. unfold in_tensor. rewrite no_metric. reflexivity. Qed.
End NoSpace.

(** *** the expansion: remainder, linearity *)
Section Linear.
  Context {A : RAlg}.
  Add Ring M_ring : (c_th A).
  Open Scope ra_scope.
  Definition constant (a : A) : Prop := forall c, dd c a = 0.

  Lemma dds_lin (s : A) w x y : constant s -> dds w (x + s * y) = dds w x + s * dds w y.
  Proof.
    intros Hs. induction w as [|c w IH]; cbn [dds]; [reflexivity|]. rewrite IH, dd_add, dd_mul, Hs. ring.
  Qed.
  Lemma dds_scale (s : A) w y : constant s -> dds w (s * y) = s * dds w y.
  Proof. intros Hs. induction w as [|c w IH]; cbn [dds]; [reflexivity|]. rewrite IH, dd_mul, Hs. ring. Qed.

  (** value of an expansion at h = s *)
  Definition sums (s : A) (v : A) (t : tri) : Prop :=
    exists R, v = fst (fst t) + s * snd (fst t) + s * s * snd t + s * s * s * R.
  Lemma sums_add s v w t u : sums s v t -> sums s w u -> sums s (v + w) (t_add t u).
  Proof.
    destruct t as [[a0 a1] a2], u as [[b0 b1] b2]. intros [R ->] [R' ->]. exists (R + R'). cbn. ring.
  Qed.
  Lemma sums_mul s v w t u : sums s v t -> sums s w u -> sums s (v * w) (t_mul t u).
  Proof.
    destruct t as [[a0 a1] a2], u as [[b0 b1] b2]. intros [R ->] [R' ->]. cbn [fst snd t_mul].
    exists (a0 * R' + a1 * b2 + a2 * b1 + R * b0 + s * (a1 * R' + a2 * b2 + R * b1) + s * s * (a2 * R' + R * b2) + s * s * s * (R * R')).
    cbn. ring.
  Qed.
  Lemma sums_const s v : sums s v (t_const v).
  Proof. exists 0. cbn. ring. Qed.

  Lemma expansion_remainder (E : env A) n p s : user_poly n p -> constant s ->
    exists R, pv (moved E s) p = taylor0 E p + s * taylor1 E p + s * s * taylor2_coef E p + s * s * s * R.
  Proof.
    intros Hp Hs. change (sums s (pv (moved E s) p) (expansion E p)). unfold expansion, t_poly, pv.
    induction p as [|[c m] p IH]; cbn [fold_right fst snd]; [apply sums_const|].
    apply sums_add; [|apply IH; intros c' m' a H; apply (Hp c' m'); right; exact H].
    apply sums_mul; [apply sums_const|]. assert (Hm : forall a, In a m -> user_atom n a) by (intros a; apply (Hp c m); left; reflexivity).
    clear Hp IH. unfold mv, t_mono. induction m as [|a m IH]; cbn [fold_right]; [apply sums_const|].
    apply sums_mul; [|apply IH; intros b Hb; apply Hm; right; exact Hb].
    specialize (Hm a (or_introl eq_refl)). destruct a as [f w|w l|k| |i|i]; [destruct f|..]; cbn in Hm; try contradiction;
      try apply sums_const.
    cbn [av t_atom moved e_fn]. rewrite dds_lin by exact Hs. exists 0. cbn. ring.
  Qed.

  Lemma t_first_linear (E : env A) (a b : A) e1 e2 p : constant a -> constant b ->
    taylor0 (with_errors E (fun i => a * e1 i + b * e2 i)) p = taylor0 E p
    /\ taylor1 (with_errors E (fun i => a * e1 i + b * e2 i)) p
       = a * taylor1 (with_errors E e1) p + b * taylor1 (with_errors E e2) p.
  Proof.
    intros Ha Hb.
    set (rel := fun (t t1 t2 t0 : @tri A) => fst (fst t) = fst (fst t0) /\ fst (fst t1) = fst (fst t0) /\ fst (fst t2) = fst (fst t0)
      /\ snd (fst t) = a * snd (fst t1) + b * snd (fst t2)).
    assert (Radd : forall t t1 t2 t0 u u1 u2 u0, rel t t1 t2 t0 -> rel u u1 u2 u0 -> rel (t_add t u) (t_add t1 u1) (t_add t2 u2) (t_add t0 u0)).
    { intros [[? ?] ?] [[? ?] ?] [[? ?] ?] [[? ?] ?] [[? ?] ?] [[? ?] ?] [[? ?] ?] [[? ?] ?] (H1 & H2 & H3 & H4) (K1 & K2 & K3 & K4).
      unfold rel. cbn in *. subst. repeat split; ring. }
    assert (Rmul : forall t t1 t2 t0 u u1 u2 u0, rel t t1 t2 t0 -> rel u u1 u2 u0 -> rel (t_mul t u) (t_mul t1 u1) (t_mul t2 u2) (t_mul t0 u0)).
    { intros [[? ?] ?] [[? ?] ?] [[? ?] ?] [[? ?] ?] [[? ?] ?] [[? ?] ?] [[? ?] ?] [[? ?] ?] (H1 & H2 & H3 & H4) (K1 & K2 & K3 & K4).
      unfold rel. cbn in *. subst. repeat split; ring. }
    assert (Rc : forall v, rel (t_const v) (t_const v) (t_const v) (t_const v)).
    { intros v. unfold rel. cbn. repeat split; ring. }
    assert (G : rel (expansion (with_errors E (fun i => a * e1 i + b * e2 i)) p) (expansion (with_errors E e1) p)
                    (expansion (with_errors E e2) p) (expansion E p)).
    { unfold expansion, t_poly. induction p as [|[c m] p IH]; cbn [fold_right fst snd]; [apply Rc|].
      apply Radd; [|exact IH]. apply Rmul; [apply Rc|]. clear IH. unfold t_mono. induction m as [|x m IH]; cbn [fold_right]; [apply Rc|].
      apply Rmul; [|exact IH]. destruct x as [f w|w l|k| |i|i]; [destruct f|..]; cbn [t_atom]; try apply Rc.
      unfold rel. cbn [fst snd with_errors e_fn]. repeat split.
      rewrite dds_lin by exact Hb. rewrite dds_scale by exact Ha. reflexivity. }
    destruct G as (G1 & _ & _ & G4). split; assumption.
  Qed.
End Linear.

(** *** from the invariants to the statements *)
Lemma occ_only n (Fo Fi : fn -> Prop) (S : nat -> Prop) (out inn : fn -> Prop) p : (forall i, S i -> i < n) -> (forall f, Fo f -> out f) -> (forall f, is_random f = true -> Fi f -> inn f) ->
  pall (occ Fo Fi S) p -> only n out inn p.
Proof.
  intros HS HO HI H c m a Hm Ha. specialize (H c m Hm a Ha). destruct a; cbn [occ] in H; auto.
  intros j Hj. destruct (H j Hj). auto.
Qed.
