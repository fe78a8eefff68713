(** The systems are always produced, for the announced left-hand sides. *)
From Coq Require Import List Arith ZArith QArith Bool String Permutation Lia.
From Verif Require Import PyBase PyBaseFacts PartialOrderModel PartialOrderSpec PartialOrderProofs TreeModel TreeSpec TreeProofs
  PKFModel PKFSpec PKFAlg PKFAtoms PKFClosure PKFProofs PKFInv TreeMore TreeProps.
Import ListNotations.
Close Scope Q_scope.
Close Scope Z_scope.
Open Scope nat_scope.
Open Scope string_scope.
Open Scope list_scope.

(** *** dictionaries *)
Lemma dkeys_dset_in {K V} (eqd : forall a b : K, {a = b} + {a <> b}) k (v : V) d k' :
  In k' (dkeys (dset eqd k v d)) <-> k' = k \/ In k' (dkeys d).
Proof.
  rewrite dkeys_dset. destruct (in_dec eqd k (dkeys d)) as [H|H].
  - split; [auto|]. intros [->|H']; assumption.
  - rewrite in_app_iff. cbn. split; [intros [?|[?|[]]]; auto|intros [?|?]; auto].
Qed.
Lemma dkeys_dupdate e : forall (d : edict) k, In k (dkeys d) \/ In k (dkeys e) -> In k (dkeys (dupdate d e)).
Proof.
  unfold dupdate. induction e as [|[k0 v0] e IH]; intros d k H; cbn [fold_left]; [destruct H as [H|[]]; exact H|].
  apply IH. rewrite dkeys_dset_in. cbn [fst snd dkeys map] in *. destruct H as [H|[H|H]]; auto.
Qed.
Lemma dkeys_dupdates ds : forall (d0 : edict) k, In k (dkeys d0) \/ (exists d, In d ds /\ In k (dkeys d)) ->
  In k (dkeys (fold_left dupdate ds d0)).
Proof.
  induction ds as [|d ds IH]; intros d0 k H; cbn [fold_left]; [destruct H as [H|(d & [] & _)]; exact H|].
  apply IH. destruct H as [H|(d' & [<-|H] & H')].
  - left. apply dkeys_dupdate; auto. - left. apply dkeys_dupdate; auto. - right. exists d'. auto.
Qed.
Lemma in_dupdates ds : forall (d0 : edict) kv, In kv (fold_left dupdate ds d0) -> In kv d0 \/ exists d, In d ds /\ In kv d.
Proof.
  induction ds as [|d ds IH]; intros d0 kv H; cbn [fold_left] in H; [auto|].
  destruct (IH _ _ H) as [H'|(d' & Hd & H')]; [|right; exists d'; split; [right; exact Hd|exact H']].
  destruct (in_dupdate _ _ _ H') as [H''|H'']; [auto|right; exists d; split; [left; reflexivity|exact H'']].
Qed.
Lemma mapM_total {X Y} (f : X -> res Y) l : (forall x, In x l -> exists y, f x = Ok y) -> exists ys, mapM f l = Ok ys.
Proof.
  induction l as [|x l IH]; intros H; [exists []; reflexivity|].
  destruct (H x (or_introl eq_refl)) as (y & Hy). destruct IH as (ys & Hys); [intros; apply H; right; assumption|].
  exists (y :: ys). cbn [mapM]. rewrite Hy. cbn [bind]. rewrite Hys. reflexivity.
Qed.
Lemma mapM_shape {X Y Z} (f : X -> res Y) (g : X -> Z) (h : Y -> Z) l ys :
  (forall x y, In x l -> f x = Ok y -> h y = g x) -> mapM f l = Ok ys -> map h ys = map g l.
Proof.
  intros H Hm. apply mapM_Ok_Forall2 in Hm. induction Hm as [|x y xs ys Hxy Hr IH]; [reflexivity|]. cbn [map].
  rewrite (H x y (or_introl eq_refl) Hxy), IH; [reflexivity|]. intros x' y' Hx. apply H. right; exact Hx.
Qed.
Lemma perm_pair {X} (a b c d : X) : Permutation [a; b] [c; d] -> (a = c /\ b = d) \/ (a = d /\ b = c).
Proof. intros H. apply Permutation_length_2 in H. destruct H as [[? ?]|[? ?]]; auto. Qed.

Lemma sequence_length cs o : List.length o = List.length cs -> (forall z, In z o -> (0 <= z)%Z) ->
  Z.of_nat (List.length (as_sequence (mkPod cs o))) = fold_right Z.add 0%Z o.
Proof.
  unfold as_sequence, as_couples. cbn [p_coords p_tuple]. revert cs. induction o as [|z o IH]; intros [|c cs] Hl Hp; try discriminate; [reflexivity|].
  cbn [combine map List.concat fst snd fold_right]. rewrite app_length, Nat2Z.inj_add, IH.
  - assert (0 <= z)%Z by (apply Hp; left; reflexivity).
    destruct (Z.ltb_spec 0 z); [rewrite repeat_length, Z2Nat.id by lia; reflexivity|cbn [List.length]; replace z with 0%Z by lia; reflexivity].
  - cbn in Hl. congruence.
  - intros z' Hz. apply Hp. right; exact Hz.
Qed.

Section Shape.
  Variables (enum : list mi -> list mi) (enumD : tdict -> tdict) (enumC : edict -> edict)
    (enumF : list (fn * poly) -> list (fn * poly)) (enumU : list fn -> list fn).
  Variables (tns : fn -> Prop) (coords : list string) (eqs : list poly).
  Hypothesis Henum : forall l, Permutation (enum l) l.
  Hypothesis HenumD : forall l, Permutation (enumD l) l.
  Hypothesis HenumC : forall l, Permutation (enumC l) l.
  Hypothesis HenumF : forall l, Permutation (enumF l) l.
  Hypothesis HenumU : forall l, Permutation (enumU l) l.
  Hypothesis Hcoords : NoDup coords.
  Hypothesis Hne : coords <> [].
  Hypothesis HU : user_system eqs.
  Notation n := (List.length eqs).
  Notation okf := (parameter tns coords n).
  Definition oke f := okf f /\ forall i, f <> FErr i.
  Definition sigf i := i < n.
  Notation okd := (detf okf).
  Notation general := (pall (occ okf okf sigf)).
  Notation mixed := (pall (occ okd okf sigf)).
  Notation closed := (pall (occ okd oke sigf)).

  Lemma co_okf : coherent okf sigf.
  Proof. intros i. reflexivity. Qed.
  Lemma co_okd : coherent okd sigf.
  Proof. apply coherent_det, co_okf. Qed.
  Lemma co_oke : coherent oke sigf.
  Proof. intros i. unfold oke. cbn. split; [intros [H _]; exact H|]. intros H. split; [exact H|discriminate]. Qed.
  Lemma okd_oke f : okd f -> oke f.
  Proof. intros [H1 H2]. split; [exact H2|]. intros i ->. discriminate. Qed.
  Lemma general_mix p : general p -> pall (occ (mixf okf okf) okf sigf) p.
  Proof. apply occ_weaken; auto. intros f H. unfold mixf. destruct (is_random f); auto. Qed.

  (** *** internal closure *)
  Lemma metric_of_ok i x y : i < n -> In x coords -> In y coords -> exists f, metric_of coords i x y = Ok f /\ okd f.
  Proof.
    intros Hi Hx Hy. destruct (cindex_in _ _ Hx) as (a & Ha), (cindex_in _ _ Hy) as (b & Hb).
    exists (metric i a b). unfold metric_of. rewrite Ha, Hb. cbn [bind]. split; [reflexivity|].
    apply cindex_lt in Ha, Hb. unfold metric. destruct (Nat.ltb_spec b a); split; cbn; try reflexivity; lia.
  Qed.
  Lemma skewness_ok i p : i < n -> p_coords p = coords -> List.length (as_sequence p) = 3 ->
    exists l v, skewness_entry coords i p = Ok (l, v) /\ closed v
      /\ exists w, l = jkey [(FEps i, []); (FEps i, w)].
  Proof.
    intros Hi Hp Hl. unfold skewness_entry. pose proof (as_sequence_in p) as Hin. rewrite Hp in Hin.
    destruct (as_sequence p) as [|k [|a [|b [|]]]]; try discriminate. unfold skewness_subs.
    destruct (metric_of_ok i k b) as (f1 & -> & H1); [exact Hi|apply Hin; cbn; auto..|].
    destruct (metric_of_ok i a k) as (f2 & -> & H2); [exact Hi|apply Hin; cbn; auto..|].
    destruct (metric_of_ok i a b) as (f3 & -> & H3); [exact Hi|apply Hin; cbn; auto..|]. cbn [bind].
    eexists. eexists. split; [reflexivity|]. split; [|eexists; reflexivity].
    apply pscale_all. repeat apply padd_all; apply (occ_jet _ _ _ co_okd); assumption.
  Qed.

  Definition entry (kv : list jet * poly) : Prop :=
    closed (snd kv)
    /\ (forall i, fst kv = [(FErr i, [])] -> snd kv = [])
    /\ (forall i, fst kv = [(FEps i, [])] -> snd kv = [])
    /\ (forall i j, i < j -> fst kv = [(FErr i, []); (FErr j, [])] -> snd kv = pfn (FCov i j)).
  Lemma jkey2_perm f g w w' : is_random f = true -> is_random g = true -> Permutation (jkey [(f, w); (g, w')]) [(f, w); (g, w')].
  Proof. intros Hf Hg. apply jkey_perm. intros j [<-|[<-|[]]]; assumption. Qed.
  Lemma jkey2_not_one f g w w' j : is_random f = true -> is_random g = true -> jkey [(f, w); (g, w')] <> [j].
  Proof. intros Hf Hg H. pose proof (jkey2_perm f g w w' Hf Hg) as HP. rewrite H in HP. apply Permutation_length in HP. discriminate. Qed.
  Lemma entry_eps i w w' v : closed v -> entry (jkey [(FEps i, w); (FEps i, w')], v).
  Proof.
    intros Hv. split; [exact Hv|]. cbn [fst snd]. split; [|split].
    - intros k H. apply jkey2_not_one in H; [destruct H|reflexivity..].
    - intros k H. apply jkey2_not_one in H; [destruct H|reflexivity..].
    - intros k l Hkl H. pose proof (jkey2_perm (FEps i) (FEps i) w w' eq_refl eq_refl) as HP. rewrite H in HP.
      apply perm_pair in HP. destruct HP as [[HP _]|[HP _]]; congruence.
  Qed.
  Lemma closed_nil : closed [].
  Proof. apply pall_nil. Qed.
  Lemma closed_fn f : okd f -> closed (pfn f).
  Proof. apply (occ_fn _ _ _ co_okd). Qed.

  Lemma field_closure_ok i : i < n -> exists d, field_closure enum coords i = Ok d
    /\ (forall kv, In kv d -> entry kv) /\ In [(FErr i, [])] (dkeys d) /\ In [(FEps i, [])] (dkeys d).
  Proof.
    intros Hi. unfold field_closure.
    destruct (C37_all_of_degree enum coords 3 Henum Hne) as (ps & -> & _ & Hps). cbn [bind].
    assert (Hsk : forall p, In p (map (mkPod coords) ps) -> exists l v, skewness_entry coords i p = Ok (l, v) /\ closed v
                    /\ exists w, l = jkey [(FEps i, []); (FEps i, w)]).
    { intros p Hp. apply in_map_iff in Hp. destruct Hp as (o & <- & Ho). apply Hps in Ho. destruct Ho as (H1 & H2 & H3).
      apply skewness_ok; [exact Hi|reflexivity|]. apply Nat2Z.inj. rewrite sequence_length by assumption. exact H3. }
    destruct (mapM_total (skewness_entry coords i) (map (mkPod coords) ps)) as (sk & Hsk').
    { intros p Hp. destruct (Hsk p Hp) as (l & v & H & _). exists (l, v). exact H. }
    rewrite Hsk'. cbn [bind]. eexists. split; [reflexivity|]. split; [|split].
    - intros [l v] Hin. apply in_app_iff in Hin. destruct Hin as [Hin|Hin].
      2:{ destruct (mapM_in _ _ _ _ Hsk' Hin) as (p & Hp & He). destruct (Hsk p Hp) as (l' & v' & He' & Hv & w & ->).
          rewrite He' in He. apply Ok_inj, pair_inj in He. destruct He as [<- <-]. apply entry_eps, Hv. }
      apply in_app_iff in Hin. destruct Hin as [[H|[H|[H|[H|[]]]]]|Hin].
      + apply pair_inj in H. destruct H as [<- <-]. split; [apply closed_nil|]. cbn [fst snd]. auto. repeat split; auto. intros; discriminate.
      + apply pair_inj in H. destruct H as [<- <-]. split; [apply closed_fn; split; [reflexivity|exact Hi]|]. cbn [fst snd].
        split; [|split].
        * intros k H. apply jkey2_not_one in H; [destruct H|reflexivity..].
        * intros k H. apply jkey2_not_one in H; [destruct H|reflexivity..].
        * intros k l Hkl H. pose proof (jkey2_perm (FErr i) (FErr i) [] [] eq_refl eq_refl) as HP. rewrite H in HP.
          apply perm_pair in HP. assert (k = i /\ l = i) as [-> ->] by (destruct HP as [[H1 H2]|[H1 H2]]; split; congruence). lia.
      + apply pair_inj in H. destruct H as [<- <-]. split; [apply closed_nil|]. cbn [fst snd]. repeat split; auto. intros; discriminate.
      + apply pair_inj in H. destruct H as [<- <-]. apply entry_eps, pone_all.
      + apply in_app_iff in Hin. destruct Hin as [Hin|Hin]; apply in_map_iff in Hin.
        * destruct Hin as (c & H & _). apply pair_inj in H. destruct H as [<- <-]. apply entry_eps, closed_nil.
        * destruct Hin as ([a b] & H & Hu). apply pair_inj in H. destruct H as [<- <-]. cbn [fst snd]. apply entry_eps, pscale_all, closed_fn.
          apply upper_in in Hu. unfold dim in Hu. unfold metric. destruct (Nat.ltb_spec b a); split; cbn; try reflexivity; lia.
    - unfold dkeys. rewrite map_app. apply in_app_iff. left. left. reflexivity.
    - unfold dkeys. rewrite map_app. apply in_app_iff. left. right. right. left. reflexivity.
  Qed.

  Definition cov_step (d : edict) (ij : nat * nat) : edict :=
    let '(i, j) := ij in
    dset jets_eq_dec (jkey [(FEps i, []); (FEps j, [])]) (pmulm 1 [AIsig i; AIsig j] (pfn (FCov i j)))
      (dset jets_eq_dec (jkey [(FErr i, []); (FErr j, [])]) (pfn (FCov i j)) d).
  Lemma cov_steps l : forall d, (forall ij, In ij l -> fst ij < snd ij /\ snd ij < n) -> (forall kv, In kv d -> entry kv) ->
    (forall kv, In kv (fold_left cov_step l d) -> entry kv)
    /\ (forall k, In k (dkeys d) -> In k (dkeys (fold_left cov_step l d)))
    /\ (forall i j, In (i, j) l -> In (jkey [(FErr i, []); (FErr j, [])]) (dkeys (fold_left cov_step l d))).
  Proof.
    induction l as [|[i j] l IH]; intros d Hl Hd; cbn [fold_left].
    { split; [exact Hd|]. split; [auto|intros i j []]. }
    destruct (Hl (i, j) (or_introl eq_refl)) as [Hij Hj]. cbn [fst snd] in Hij, Hj.
    assert (Hok : okd (FCov i j)) by (split; [reflexivity|split; assumption]).
    assert (H1 : entry (jkey [(FErr i, []); (FErr j, [])], pfn (FCov i j))).
    { split; [apply closed_fn, Hok|]. cbn [fst snd]. split; [|split].
      - intros k H. apply jkey2_not_one in H; [destruct H|reflexivity..].
      - intros k H. apply jkey2_not_one in H; [destruct H|reflexivity..].
      - intros k m Hkm H. pose proof (jkey2_perm (FErr i) (FErr j) [] [] eq_refl eq_refl) as HP. rewrite H in HP.
        apply perm_pair in HP. destruct HP as [[Ha Hb]|[Ha Hb]]; injection Ha as Ha; injection Hb as Hb; subst; [reflexivity|lia]. }
    assert (H2 : entry (jkey [(FEps i, []); (FEps j, [])], pmulm 1 [AIsig i; AIsig j] (pfn (FCov i j)))).
    { split; [apply pmulm_all; [|apply closed_fn, Hok]; intros a [<-|[<-|[]]]; unfold occ, sigf; lia|]. cbn [fst snd]. split; [|split].
      - intros k H. apply jkey2_not_one in H; [destruct H|reflexivity..].
      - intros k H. apply jkey2_not_one in H; [destruct H|reflexivity..].
      - intros k m Hkm H. pose proof (jkey2_perm (FEps i) (FEps j) [] [] eq_refl eq_refl) as HP. rewrite H in HP.
        apply perm_pair in HP. destruct HP as [[Ha Hb]|[Ha Hb]]; congruence. }
    destruct (IH (cov_step d (i, j))) as (G1 & G2 & G3).
    - intros ij H. apply Hl. right; exact H.
    - intros [k v] Hin. unfold cov_step in Hin. apply in_dset in Hin. destruct Hin as [[-> ->]|Hin]; [exact H2|].
      apply in_dset in Hin. destruct Hin as [[-> ->]|Hin]; [exact H1|apply Hd, Hin].
    - split; [exact G1|]. split.
      + intros k Hk. apply G2. unfold cov_step. rewrite !dkeys_dset_in. auto.
      + intros i' j' [H|H]; [|apply G3, H]. apply pair_inj in H. destruct H as [<- <-]. apply G2. unfold cov_step. rewrite !dkeys_dset_in. auto.
  Qed.

  Lemma internal_ok : exists cl, internal_closure enum coords eqs = Ok cl
    /\ (forall kv, In kv cl -> entry kv)
    /\ (forall i, i < n -> In [(FErr i, [])] (dkeys cl)) /\ (forall i, i < n -> In [(FEps i, [])] (dkeys cl))
    /\ (forall i j, i < j -> j < n -> In (jkey [(FErr i, []); (FErr j, [])]) (dkeys cl)).
  Proof.
    unfold internal_closure. destruct (mapM_total (field_closure enum coords) (fields eqs)) as (ds & Hds).
    { intros i Hi. apply fields_in in Hi. destruct (field_closure_ok i Hi) as (d & H & _). exists d. exact H. }
    rewrite Hds. cbn [bind]. eexists. split; [reflexivity|].
    change (fold_left _ (couples eqs) (fold_left dupdate ds [])) with (fold_left cov_step (couples eqs) (fold_left dupdate ds [])).
    destruct (cov_steps (couples eqs) (fold_left dupdate ds [])) as (G1 & G2 & G3).
    - intros [i j] H. apply couples_in in H. exact H.
    - intros kv Hin. apply in_dupdates in Hin. destruct Hin as [[]|(d & Hd & Hin)].
      destruct (mapM_in _ _ _ _ Hds Hd) as (i & Hi & He). apply fields_in in Hi.
      destruct (field_closure_ok i Hi) as (d' & He' & H & _). rewrite He' in He. apply Ok_inj in He. subst d'. exact (H kv Hin).
    - assert (K : forall i k, i < n -> (forall d, field_closure enum coords i = Ok d -> In k (dkeys d)) -> In k (dkeys (fold_left dupdate ds []))).
      { intros i k Hi Hk. apply dkeys_dupdates. right. destruct (field_closure_ok i Hi) as (d & He & _).
        exists d. split; [|exact (Hk d He)]. apply mapM_Ok_Forall2 in Hds.
        assert (In i (fields eqs)) by (apply fields_in, Hi). clear - Hds H He.
        induction Hds as [|x y xs ys Hxy Hr IH]; [destruct H|]. destruct H as [->|H]; [left; congruence|right; exact (IH H)]. }
      split; [exact G1|]. split; [|split].
      + intros i Hi. apply G2, (K i); [exact Hi|]. intros d Hd. destruct (field_closure_ok i Hi) as (d' & He & _ & H & _).
        rewrite He in Hd. apply Ok_inj in Hd. subst d'. exact H.
      + intros i Hi. apply G2, (K i); [exact Hi|]. intros d Hd. destruct (field_closure_ok i Hi) as (d' & He & _ & _ & H).
        rewrite He in Hd. apply Ok_inj in Hd. subst d'. exact H.
      + intros i j Hij Hj. apply G3, couples_in. split; assumption.
  Qed.

  (** *** left-hand sides *)
  Notation td := time_derivative.
  Lemma td_sub_exps d f : sub_exps d (td f) = td f.
  Proof. induction d as [|kv d IH]; [reflexivity|]. exact IH. Qed.
  Lemma td_sub_fn f v g : f <> g -> (forall k dp, g <> FExt k dp) -> sub_fn f v (td g) = td g.
  Proof.
    intros Hf Hg. unfold sub_fn, psubst, time_derivative. cbn [map fst snd asubst]. destruct (fn_eq_dec g f) as [->|_]; [congruence|].
    destruct g; try reflexivity. destruct (Hg k deps eq_refl).
  Qed.
  Lemma td_sub_fns d g : (forall f v, In (f, v) d -> f <> g) -> (forall k dp, g <> FExt k dp) -> sub_fns d (td g) = td g.
  Proof.
    intros Hd Hg. unfold sub_fns. induction d as [|[f v] d IH]; [reflexivity|]. cbn [fold_left fst snd].
    rewrite td_sub_fn by (exact Hg || exact (Hd f v (or_introl eq_refl))). apply IH. intros f' v' H. apply (Hd f' v'). right; exact H.
  Qed.
  Lemma td_pjet g : (forall k dp, g <> FExt k dp) -> pjet g ["t"] = td g.
  Proof. intros Hg. destruct g; try reflexivity. destruct (Hg k deps eq_refl). Qed.

  Definition lhs1 i : poly := [(1%Q, [AJet (FMean i) ["t"]]); (1%Q, [AJet (FErr i) ["t"]])].
  Definition lhs2 i : poly := [(1%Q, [AJet (FMean i) ["t"]]); (1%Q, [AExp ["t"] [(FErr i, [])]])].
  Definition lhs3 i : poly := [(1%Q, [ASig i; AExp ["t"] [(FEps i, [])]]); ((1 # 2)%Q, [AIsig i; AJet (FVar i) ["t"]; AExp [] [(FEps i, [])]]);
                               (1%Q, [AJet (FMean i) ["t"]])].
  Lemma lhs1_second i : i < n -> small_one (fst (reynolds enumF eqs i)) = lhs1 i.
  Proof. intros Hi. cbn [fst reynolds]. rewrite reynolds_lhs by assumption. reflexivity. Qed.
  Lemma lhs1_first i : i < n -> small_one (square_zero (fst (reynolds enumF eqs i))) = lhs1 i.
  Proof. intros Hi. cbn [fst reynolds]. rewrite reynolds_lhs by assumption. reflexivity. Qed.
  Lemma lhs1_expect i : expect (lhs1 i) = lhs2 i.
  Proof. reflexivity. Qed.
  Lemma lhs2_step i l v : (l = [(FErr i, [])] -> v = []) ->
    sub_exp l v (lhs2 i) = if jets_eq_dec [(FErr i, [])] l then td (FMean i) else lhs2 i.
  Proof.
    intros H. unfold sub_exp, lhs2. cbn [map fst snd]. destruct (jets_eq_dec [(FErr i, [])] l) as [<-|_]; [|reflexivity].
    rewrite (H eq_refl). reflexivity.
  Qed.
  Lemma lhs2_closed i d : (forall v, In ([(FErr i, [])], v) d -> v = []) -> In [(FErr i, [])] (dkeys d) ->
    sub_exps d (lhs2 i) = td (FMean i).
  Proof.
    induction d as [|[l v] d IH]; intros Hv Hk; [destruct Hk|]. unfold sub_exps. cbn [fold_left fst snd].
    rewrite lhs2_step by (intros ->; apply Hv; left; reflexivity).
    destruct (jets_eq_dec [(FErr i, [])] l) as [E|E].
    - apply (td_sub_exps d).
    - apply IH; [intros v' H; apply Hv; right; exact H|]. destruct Hk as [Hk|Hk]; [cbn in Hk; congruence|exact Hk].
  Qed.
  Lemma lhs3_step i l v : (l = [(FEps i, [])] -> v = []) ->
    sub_exp l v (lhs3 i) = if jets_eq_dec [(FEps i, [])] l then td (FMean i) else lhs3 i.
  Proof.
    intros H. unfold sub_exp, lhs3. cbn [map fst snd]. destruct (jets_eq_dec [(FEps i, [])] l) as [<-|_]; [|reflexivity].
    rewrite (H eq_refl). reflexivity.
  Qed.
  Lemma lhs3_closed i d : (forall v, In ([(FEps i, [])], v) d -> v = []) -> In [(FEps i, [])] (dkeys d) ->
    sub_exps d (lhs3 i) = td (FMean i).
  Proof.
    induction d as [|[l v] d IH]; intros Hv Hk; [destruct Hk|]. unfold sub_exps. cbn [fold_left fst snd].
    rewrite lhs3_step by (intros ->; apply Hv; left; reflexivity).
    destruct (jets_eq_dec [(FEps i, [])] l) as [E|E].
    - apply (td_sub_exps d).
    - apply IH; [intros v' H; apply Hv; right; exact H|]. destruct Hk as [Hk|Hk]; [cbn in Hk; congruence|exact Hk].
  Qed.
  Lemma error_perm : exists l, enumF (subs_error eqs) = map (fun i => (FErr i, pmulm 1 [ASig i] (pfn (FEps i)))) l
    /\ Permutation l (fields eqs).
  Proof.
    destruct (Permutation_map_inv _ _ (HenumF (subs_error eqs))) as (l & He & HP). exists l. split; [exact He|symmetry; exact HP].
  Qed.
  Lemma lhs3_fix i l : sub_fns (map (fun i => (FErr i, pmulm 1 [ASig i] (pfn (FEps i)))) l) (lhs3 i) = lhs3 i.
  Proof. induction l as [|j l IH]; [reflexivity|]. exact IH. Qed.
  Lemma lhs2_error i : i < n -> sub_fns (enumF (subs_error eqs)) (lhs2 i) = lhs3 i.
  Proof.
    intros Hi. destruct error_perm as (l & -> & HP).
    assert (Hin : In i l) by (apply (Permutation_in _ (Permutation_sym HP)), fields_in, Hi). clear HP.
    induction l as [|j l IH]; [destruct Hin|]. unfold sub_fns. cbn [map fold_left fst snd].
    destruct (Nat.eq_dec j i) as [->|Hji].
    - transitivity (sub_fns (map (fun i => (FErr i, pmulm 1 [ASig i] (pfn (FEps i)))) l) (lhs3 i)); [|apply lhs3_fix].
      unfold sub_fns. f_equal. unfold sub_fn, psubst, lhs2. cbn [map fst snd asubst].
      destruct (fn_eq_dec (FMean i) (FErr i)); [discriminate|]. destruct (fn_eq_dec (FErr i) (FErr i)) as [_|]; [|congruence]. reflexivity.
    - destruct Hin as [->|Hin]; [congruence|]. rewrite <- (IH Hin). unfold sub_fns. f_equal.
      unfold sub_fn, psubst, lhs2. cbn [map fst snd asubst].
      destruct (fn_eq_dec (FMean i) (FErr j)); [discriminate|]. destruct (fn_eq_dec (FErr i) (FErr j)) as [E|_]; [congruence|]. reflexivity.
  Qed.

  (** *** right-hand sides *)
  Lemma user_general i : i < n -> general (nth i eqs []).
  Proof.
    intros Hi c m H a Ha. specialize (HU _ c m a (nth_In eqs [] Hi) H Ha).
    destruct a as [f w|w l|k| |j|j]; cbn in HU |- *; try exact I; try destruct HU. destruct f; cbn in HU; try destruct HU; auto.
  Qed.
  Lemma small_one_all P p : pall P p -> pall P (small_one p).
  Proof.
    intros H. unfold small_one. apply psum_all. intros q Hq. apply in_map_iff in Hq. destruct Hq as ([c m] & <- & Hm).
    apply pins_all; [|apply pall_nil]. cbn [fst snd]. apply mfilter_all. exact (H c m Hm).
  Qed.
  Lemma reynolds_general i : i < n -> general (snd (reynolds enumF eqs i)).
  Proof.
    intros Hi. cbn [reynolds snd]. unfold taylor2. apply filter_all. unfold subs_reynolds. apply occ_sub_fns; [exact co_okf| |apply user_general, Hi].
    intros f v Hin. apply (Permutation_in _ (HenumF _)) in Hin. apply in_map_iff in Hin. destruct Hin as (j & H & Hj).
    apply pair_inj in H. destruct H as [<- <-]. apply fields_in in Hj.
    assert (G : general (padd (pfn (FMean j)) (pmulm 1 [ASmall] (pfn (FErr j))))).
    { apply padd_all; [apply (occ_fn _ _ _ co_okf); exact Hj|]. apply pmulm_all; [intros a [<-|[]]; exact I|apply (occ_fn _ _ _ co_okf); exact Hj]. }
    split; [intros _; exact G|]. discriminate.
  Qed.
  Lemma expect_mixed p : general p -> mixed (expect p).
  Proof. intros H. apply (occ_expect okf okf); auto. Qed.

  Lemma error_keys f : okf f -> ~ In f (map fst (enumF (subs_error eqs))) -> oke f.
  Proof.
    intros Hf Hn. split; [exact Hf|]. intros i ->. apply Hn.
    apply (Permutation_in _ (Permutation_map fst (Permutation_sym (HenumF _)))). unfold subs_error. rewrite map_map.
    apply in_map_iff. exists i. split; [reflexivity|apply fields_in; exact Hf].
  Qed.
  Lemma error_key_is f : In f (map fst (enumF (subs_error eqs))) -> exists i, f = FErr i.
  Proof.
    intros H. apply (Permutation_in _ (Permutation_map fst (HenumF _))) in H. unfold subs_error in H. rewrite map_map in H.
    apply in_map_iff in H. destruct H as (i & <- & _). exists i. reflexivity.
  Qed.
  Lemma error_gone (Fo : fn -> Prop) p : coherent Fo sigf -> (forall f, Fo f -> okf f) ->
    (forall i, i < n -> Fo (FErr i) -> Fo (FEps i)) -> pall (occ Fo okf sigf) p ->
    pall (occ (fun f => Fo f /\ oke f) oke sigf) (sub_fns (enumF (subs_error eqs)) p).
  Proof.
    intros HC Hsub Heps Hp.
    eapply (occ_weaken (fun f => Fo f /\ ~ In f (map fst (enumF (subs_error eqs)))) (fun f => okf f /\ ~ In f (map fst (enumF (subs_error eqs))))).
    - intros f [H1 H2]. split; [exact H1|apply error_keys; auto].
    - intros f [H1 H2]. apply error_keys; auto.
    - intros i H. exact H.
    - apply occ_sub_fns_gone; [exact HC| | |exact Hp].
      + intros i H. destruct (error_key_is _ H); discriminate.
      + intros f v Hin. apply (Permutation_in _ (HenumF _)) in Hin. apply in_map_iff in Hin. destruct Hin as (j & H & Hj).
        apply pair_inj in H. destruct H as [<- <-]. apply fields_in in Hj.
        assert (Hk : ~ In (FEps j) (map fst (enumF (subs_error eqs)))) by (intros H; destruct (error_key_is _ H); discriminate).
        split.
        * intros Hf. apply pmulm_all; [intros a [<-|[]]; exact Hj|]. apply pall_atom. cbn. split; [apply Heps; assumption|exact Hk].
        * intros _. apply pmulm_all; [intros a [<-|[]]; exact Hj|]. apply pall_atom. cbn. right. split; [reflexivity|]. split; [exact Hj|exact Hk].
  Qed.
  Lemma error_closed p : mixed p -> closed (sub_fns (enumF (subs_error eqs)) p).
  Proof.
    intros H. eapply occ_weaken; [| | |apply (error_gone okd); [exact co_okd|intros f [_ ?]; assumption|intros i _ [? _]; discriminate|exact H]]; auto.
    intros f [? _]; assumption.
  Qed.
  Lemma error_normalised p : general p -> pall (occ oke oke sigf) (sub_fns (enumF (subs_error eqs)) p).
  Proof.
    intros H. eapply occ_weaken; [| | |apply (error_gone okf); [exact co_okf|auto|intros i Hi _; exact Hi|exact H]]; auto.
    intros f [_ ?]; assumption.
  Qed.
  Lemma closed_mixed p : closed p -> mixed p.
  Proof. apply occ_weaken; auto. intros f [? _]; assumption. Qed.
  Lemma mixed_general p : mixed p -> general p.
  Proof. apply occ_weaken; auto. intros f [_ ?]; assumption. Qed.
  Lemma enumC_entry (P : list jet * poly -> Prop) d : (forall kv, In kv d -> P kv) -> forall kv, In kv (enumC d) -> P kv.
  Proof. intros H kv Hin. apply H. apply (Permutation_in _ (HenumC d)), Hin. Qed.
  Lemma closed_exps d p : (forall l v, In (l, v) d -> closed v) -> closed p -> closed (sub_exps (enumC d) p).
  Proof.
    intros Hd Hp. apply occ_sub_exps; [exact co_okd| |exact Hp]. intros l v Hin. apply (Hd l v). apply (Permutation_in _ (HenumC d)), Hin.
  Qed.

  Definition shaped (s : list pequation) (fs : list fn) (Pr : poly -> Prop) : Prop :=
    map fst s = map td fs /\ forall q, In q s -> Pr (snd q).

  Lemma enum_nil d i (x : fn) : (forall kv, In kv d -> entry kv) -> x = FErr i \/ x = FEps i -> forall v, In ([(x, [])], v) (enumC d) -> v = [].
  Proof.
    intros Hd Hx v Hin. apply (Permutation_in _ (HenumC d)) in Hin. destruct (Hd _ Hin) as (_ & H1 & H2 & _). cbn [fst snd] in *.
    destruct Hx as [->| ->]; [exact (H1 i eq_refl)|exact (H2 i eq_refl)].
  Qed.
  Lemma enum_key d k : In k (dkeys d) -> In k (dkeys (enumC d)).
  Proof. intros H. unfold dkeys in *. apply (Permutation_in _ (Permutation_map fst (Permutation_sym (HenumC d)))), H. Qed.

  Lemma expectation_ok : exists s, expectation_system enum enumC enumF coords eqs = Ok s
    /\ shaped s (map FMean (fields eqs)) closed.
  Proof.
    destruct internal_ok as (cl & Hcl & He & _ & Hk & _). unfold expectation_system. rewrite Hcl. cbn [bind]. eexists. split; [reflexivity|].
    unfold second_order_reynolds. rewrite map_map. split.
    - rewrite !map_map. apply map_ext_in. intros i Hi. apply fields_in in Hi. cbn [on_eq fst snd].
      rewrite lhs1_second, lhs1_expect, lhs2_error by exact Hi. apply lhs3_closed; [apply (enum_nil cl i); auto|apply enum_key, Hk, Hi].
    - intros q Hq. apply in_map_iff in Hq. destruct Hq as (i & <- & Hi). apply fields_in in Hi. cbn [on_eq fst snd].
      apply closed_exps; [intros l v H; exact (proj1 (He _ H))|]. apply error_closed, expect_mixed, small_one_all, reynolds_general, Hi.
  Qed.

  Lemma pins_cancel m r : pins (1%Q, m) (((-1)%Q, m) :: r) = r.
  Proof. cbn [pins fst snd]. destruct (Qeq_bool 1 0) eqn:H; [discriminate|]. destruct (list_eq_dec atom_eq_dec m m) as [_|]; [|congruence]. reflexivity. Qed.
  Lemma lhs_error i : psub (lhs1 i) (td (FMean i)) = td (FErr i).
  Proof.
    change (psub (lhs1 i) (td (FMean i))) with
      (pins (1%Q, [AJet (FMean i) ["t"]]) (((-1)%Q, [AJet (FMean i) ["t"]]) :: td (FErr i))).
    apply pins_cancel.
  Qed.
  Lemma error_ok : exists s, error_system enum enumC enumF coords eqs = Ok s /\ shaped s (map FErr (fields eqs)) general.
  Proof.
    destruct internal_ok as (cl & Hcl & He & Hk & _). unfold error_system, tl_expectation_system. rewrite Hcl. cbn [bind]. eexists. split; [reflexivity|].
    unfold first_order_reynolds. rewrite map_map.
    assert (HCM : forall (X : Type) (f g : nat -> X) l, combine (map f l) (map g l) = map (fun i => (f i, g i)) l).
    { intros X f g l. induction l as [|i l IH]; [reflexivity|]. cbn [map combine]. rewrite IH. reflexivity. }
    rewrite HCM, map_map. split.
    - rewrite !map_map. apply map_ext_in. intros i Hi. apply fields_in in Hi. cbn [on_eq fst snd].
      rewrite lhs1_first, lhs1_expect by exact Hi. rewrite lhs2_closed; [apply lhs_error|apply (enum_nil cl i); auto|apply enum_key, Hk, Hi].
    - intros q Hq. apply in_map_iff in Hq. destruct Hq as (i & <- & Hi). apply fields_in in Hi. cbn [on_eq fst snd].
      assert (G : general (small_one (square_zero (snd (reynolds enumF eqs i))))) by (apply small_one_all, filter_all, reynolds_general, Hi).
      apply psub_all; [exact G|]. apply mixed_general. apply occ_sub_exps; [exact co_okd| |apply expect_mixed, G].
      intros l v Hin. apply closed_mixed. apply (Permutation_in _ (HenumC cl)) in Hin. exact (proj1 (He _ Hin)).
  Qed.

  Lemma trend_key_td f : trend_key (td f) = Ok f.
  Proof. unfold time_derivative, trend_key. destruct (list_eq_dec string_dec ["t"] ["t"]) as [_|]; [reflexivity|congruence]. Qed.
  Lemma trend_dict_ok s fs : map fst s = map td fs -> trend_dict s = Ok (combine fs (map snd s)).
  Proof.
    revert fs. induction s as [|[l r] s IH]; intros [|f fs] H; try discriminate; [reflexivity|]. cbn [map fst] in H. injection H as H1 H2.
    unfold trend_dict in *. cbn [mapM fst snd]. rewrite H1, trend_key_td. cbn [bind]. rewrite (IH fs H2). reflexivity.
  Qed.
  Lemma trends_ok s fs Pr : shaped s fs Pr -> exists d, trend_dict s = Ok d /\ forall f v, In (f, v) (enumF d) -> In f fs /\ Pr v.
  Proof.
    intros [H1 H2]. eexists. split; [apply trend_dict_ok, H1|]. intros f v Hin. apply (Permutation_in _ (HenumF _)) in Hin.
    split; [exact (in_combine_l _ _ _ _ Hin)|]. apply in_combine_r in Hin. apply in_map_iff in Hin. destruct Hin as (q & <- & Hq). exact (H2 q Hq).
  Qed.

  (** *** _apply_internal_closure *)
  Lemma univariate_in l f k : is_univariate l = Some (f, k) -> In f (map fst l).
  Proof.
    unfold is_univariate. set (ds := nodup jet_eq_dec (filter _ l)). set (fs := nodup fn_eq_dec (map fst ds)).
    assert (Hf : forall g, In g fs -> In g (map fst l)).
    { intros g Hg. unfold fs in Hg. apply nodup_In in Hg. apply in_map_iff in Hg. destruct Hg as (j & <- & Hj).
      unfold ds in Hj. apply nodup_In, filter_In in Hj. apply in_map. exact (proj1 Hj). }
    destruct fs as [|g [|]]; try discriminate. destruct ds as [|d1 [|d2 [|]]]; try discriminate.
    - destruct (jets_eq_dec _ _); [intros H; apply Hf; left; congruence|]. destruct (jets_eq_dec _ _); [intros H; apply Hf; left; congruence|discriminate].
    - destruct (jets_eq_dec _ _); [intros H; apply Hf; left; congruence|discriminate].
  Qed.
  Lemma check_keys p f : In f (dkeys (check_univariate p)) <-> exists l k, In l (exp_atoms p) /\ is_univariate l = Some (f, k).
  Proof.
    unfold check_univariate.
    assert (G : forall ls d, In f (dkeys (fold_left (fun d l => match is_univariate l with
        | None => d
        | Some (f, n) => match dget fn_eq_dec f d with Some ns => dset fn_eq_dec f (ns ++ [n]) d | None => dset fn_eq_dec f [n] d end
        end) ls d)) <-> In f (dkeys d) \/ exists l k, In l ls /\ is_univariate l = Some (f, k)).
    { induction ls as [|l ls IH]; intros d; cbn [fold_left].
      - split; [auto|]. intros [H|(l & k & [] & _)]; exact H.
      - rewrite IH. destruct (is_univariate l) as [[g k]|] eqn:Hl.
        + assert (K : In f (dkeys (match dget fn_eq_dec g d with Some ns => dset fn_eq_dec g (ns ++ [k]) d | None => dset fn_eq_dec g [k] d end))
                      <-> f = g \/ In f (dkeys d)) by (destruct (dget fn_eq_dec g d); apply dkeys_dset_in).
          rewrite K. split.
          * intros [[->|H]|(l' & k' & H1 & H2)]; [right; exists l, k; split; [left; reflexivity|exact Hl]|auto|right; exists l', k'; split; [right; exact H1|exact H2]].
          * intros [H|(l' & k' & [<-|H1] & H2)]; [auto|left; left; congruence|right; exists l', k'; auto].
        + split.
          * intros [H|(l' & k' & H1 & H2)]; [auto|right; exists l', k'; split; [right; exact H1|exact H2]].
          * intros [H|(l' & k' & [<-|H1] & H2)]; [auto|congruence|right; exists l', k'; auto]. }
    rewrite G. split; [intros [[]|H]; exact H|auto].
  Qed.
  Lemma exp_atoms_in p l : In l (exp_atoms p) <-> exists c m w, In (c, m) p /\ In (AExp w l) m.
  Proof.
    unfold exp_atoms. rewrite nodup_In, in_flat_map. split.
    - intros ([c m] & Hm & H). cbn [snd] in H. apply in_flat_map in H. destruct H as (a & Ha & H). destruct a; try destruct H.
      + subst. exists c, m, w. auto. + destruct H.
    - intros (c & m & w & Hm & Ha). exists (c, m). split; [exact Hm|]. cbn [snd]. apply in_flat_map. exists (AExp w l). split; [exact Ha|left; reflexivity].
  Qed.
  Lemma closed_univariate p f : closed p -> In f (dkeys (check_univariate p)) -> exists i, i < n /\ f = FEps i.
  Proof.
    intros Hp Hf. apply check_keys in Hf. destruct Hf as (l & k & Hl & Hu). apply univariate_in in Hu. apply in_map_iff in Hu.
    destruct Hu as (j & <- & Hj). apply exp_atoms_in in Hl. destruct Hl as (c & m & w & Hm & Ha). specialize (Hp c m Hm _ Ha j Hj).
    destruct Hp as [Hr [Hok Hne']]. destruct (fst j); try discriminate; [destruct (Hne' i eq_refl)|]. exists i. split; [exact Hok|reflexivity].
  Qed.
  Lemma tree_value_closed i e : i < n -> closed (tree_value coords i e).
  Proof.
    intros Hi. unfold tree_value. apply psum_all. intros q Hq. apply in_map_iff in Hq. destruct Hq as ([[c ds] k] & <- & _).
    apply pscale_all, (occ_derivs _ _ _ co_okd), pall_atom. intros j Hj. unfold tree_key in Hj.
    apply (Permutation_in _ (jkey2_perm (FEps i) (FEps i) _ _ eq_refl eq_refl)) in Hj.
    assert (K : fst j = FEps i) by (destruct Hj as [<-|[<-|[]]]; reflexivity). rewrite K.
    split; [reflexivity|]. split; [exact Hi|discriminate].
  Qed.
  Lemma closed_tree_ok cl i k : i < n -> (forall l v, In (l, v) cl -> closed v) ->
    exists d, closed_tree enum enumD enumC coords cl i k = Ok d /\ forall l v, In (l, v) d -> closed v.
  Proof.
    intros Hi Hcl. unfold closed_tree.
    destruct (C39_complete enum enumD true coords Henum HenumD Hcoords Hne [] k) as (rules & HR & _).
    change (tree_calls enum enumD true coords tree_init []) with tree_init in HR. rewrite HR. cbn [bind]. eexists. split; [reflexivity|].
    intros l v Hin. apply in_map_iff in Hin. destruct Hin as (kv & H & _). apply pair_inj in H. destruct H as [<- <-].
    apply closed_exps; [exact Hcl|apply tree_value_closed, Hi].
  Qed.
  Lemma apply_ok p : closed p -> exists q, apply_internal_closure enum enumD enumC enumU coords eqs p = Ok q /\ closed q.
  Proof.
    intros Hp. destruct internal_ok as (cl & Hcl & He & _). unfold apply_internal_closure. rewrite Hcl. cbn [bind].
    assert (Hc : forall l v, In (l, v) cl -> closed v) by (intros l v H; exact (proj1 (He _ H))).
    assert (Hf : forall f, In f (dkeys (check_univariate p)) -> exists i, i < n /\ field_of eqs f = Some i).
    { intros f H. destruct (closed_univariate p f Hp H) as (i & Hi & ->). exists i. split; [exact Hi|]. cbn [field_of]. unfold nfields.
      destruct (Nat.ltb_spec i n); [reflexivity|lia]. }
    destruct (existsb _ _) eqn:Hex.
    { apply existsb_exists in Hex. destruct Hex as (f & H1 & H2). destruct (Hf f H1) as (i & _ & H). rewrite H in H2. discriminate. }
    set (step := fun (p0 : poly) (f : fn) => _).
    assert (G : forall fs p0, (forall f, In f fs -> In f (dkeys (check_univariate p))) -> closed p0 ->
              exists q, foldM step p0 fs = Ok q /\ closed q).
    { induction fs as [|f fs IH]; intros p0 Hfs Hp0; [exists p0; split; [reflexivity|exact Hp0]|]. cbn [foldM].
      assert (Hk := Hfs f (or_introl eq_refl)). destruct (Hf f Hk) as (i & Hi & Hfi).
      unfold step at 1. rewrite Hfi. destruct (dget_key_ex fn_eq_dec f _ Hk) as (ns & Hns). unfold dgetE. rewrite Hns. cbn [bind].
      destruct (closed_tree_ok cl i (fold_right Nat.max 0 ns) Hi Hc) as (t & Ht & Htc). rewrite Ht. cbn [bind].
      apply IH; [intros g Hg; apply Hfs; right; exact Hg|]. apply closed_exps; assumption. }
    destruct (G (enumU (dkeys (check_univariate p))) p) as (q & Hq & Hqc); [|exact Hp|].
    { intros f H. apply (Permutation_in _ (HenumU _)), H. }
    rewrite Hq. cbn [bind]. eexists. split; [reflexivity|]. apply closed_exps; assumption.
  Qed.

  (** *** the systems *)
  Lemma mapM_shaped {X} (f : X -> res pequation) g l Pr : (forall x, In x l -> exists q, f x = Ok q /\ fst q = td (g x) /\ Pr (snd q)) ->
    exists s, mapM f l = Ok s /\ shaped s (map g l) Pr.
  Proof.
    intros H. destruct (mapM_total f l) as (s & Hs); [intros x Hx; destruct (H x Hx) as (q & Hq & _); exists q; exact Hq|].
    exists s. split; [exact Hs|]. split.
    - rewrite map_map. apply (mapM_shape f _ fst l s); [|exact Hs]. intros x y Hx Hy. destruct (H x Hx) as (q & Hq & H1 & _). congruence.
    - intros q Hq. destruct (mapM_in _ _ _ _ Hs Hq) as (x & Hx & Hy). destruct (H x Hx) as (q' & Hq' & _ & H2). congruence.
  Qed.
  Lemma general_mixd p : general p -> pall (occ (mixf okd okf) okf sigf) p.
  Proof. apply occ_weaken; auto. intros f H. unfold mixf, detf. destruct (is_random f); auto. Qed.
  Lemma sub_error_trends d p : (forall f v, In (f, v) d -> In f (map FErr (fields eqs)) /\ general v) -> mixed p -> mixed (sub_trends d p).
  Proof.
    intros Hd. apply occ_sub_trends; [exact co_okd|]. intros f v Hin. destruct (Hd f v Hin) as [H1 H2].
    split; [|intros _ _; apply general_mixd, H2]. apply in_map_iff in H1. destruct H1 as (i & <- & _). intros [H _]. discriminate.
  Qed.
  Lemma pair_closed es tr i j : i < n -> j < n -> error_system enum enumC enumF coords eqs = Ok es -> trend_dict es = Ok tr ->
    closed (sub_fns (enumF (subs_error eqs)) (sub_trends (enumF tr) (expect (pderiv "t" (pmul (pfn (FErr i)) (pfn (FErr j))))))).
  Proof.
    intros Hi Hj Hes Htr. destruct error_ok as (es' & Hes' & Hsh). rewrite Hes' in Hes. apply Ok_inj in Hes. subst es'.
    destruct (trends_ok es _ _ Hsh) as (tr' & Htr' & Hd). rewrite Htr' in Htr. apply Ok_inj in Htr. subst tr'.
    apply error_closed, sub_error_trends; [exact Hd|]. apply expect_mixed, (occ_deriv _ _ _ co_okf), pmul_all; apply (occ_fn _ _ _ co_okf); assumption.
  Qed.
  Lemma variance_ok : exists s, variance_system enum enumD enumC enumF enumU coords eqs = Ok s /\ shaped s (map FVar (fields eqs)) closed.
  Proof.
    destruct error_ok as (es & Hes & Hsh). destruct (trends_ok es _ _ Hsh) as (tr & Htr & Hd).
    unfold variance_system. rewrite Hes. cbn [bind]. rewrite Htr. cbn [bind]. apply mapM_shaped. intros i Hi. apply fields_in in Hi.
    unfold variance_equation.
    destruct (apply_ok (sub_fns (enumF (subs_error eqs)) (sub_trends (enumF tr) (expect (pderiv "t" (pmul (pfn (FErr i)) (pfn (FErr i)))))))) as (q & Hq & Hc).
    { apply (pair_closed es tr i i); assumption. }
    rewrite Hq. cbn [bind]. eexists. split; [reflexivity|]. split; [reflexivity|exact Hc].
  Qed.
  Lemma epsilon_ok : exists s, epsilon_system enum enumD enumC enumF enumU coords eqs = Ok s
    /\ shaped s (map FEps (fields eqs)) (pall (occ oke oke sigf)).
  Proof.
    destruct error_ok as (es & Hes & Hsh). destruct (trends_ok es _ _ Hsh) as (tr & Htr & Hd).
    destruct variance_ok as (vs & Hvs & Hvsh). destruct (trends_ok vs _ _ Hvsh) as (vt & Hvt & Hvd).
    unfold epsilon_system. rewrite Hes. cbn [bind]. rewrite Htr. cbn [bind]. rewrite Hvs. cbn [bind]. rewrite Hvt. cbn [bind].
    eexists. split; [reflexivity|]. split; [rewrite !map_map; reflexivity|].
    intros q Hq. apply in_map_iff in Hq. destruct Hq as (i & <- & Hi). apply fields_in in Hi. unfold epsilon_equation. cbn [snd].
    apply error_normalised. apply occ_sub_trends; [exact co_okf| |apply occ_sub_trends; [exact co_okf| |]].
    - intros f v Hin. destruct (Hvd f v Hin) as [H1 H2]. apply closed_mixed, mixed_general in H2.
      split; [intros _; exact H2|intros _ _; apply general_mix, H2].
    - intros f v Hin. destruct (Hd f v Hin) as [H1 H2]. split; [intros _; exact H2|intros _ _; apply general_mix, H2].
    - apply (occ_deriv _ _ _ co_okf), pmulm_all; [intros a [<-|[]]; exact Hi|apply (occ_fn _ _ _ co_okf); exact Hi].
  Qed.
  Lemma covariance_ok : exists s, cross_covariance_system enum enumD enumC enumF enumU coords eqs = Ok s
    /\ shaped (optional s) (map (fun ij => FCov (fst ij) (snd ij)) (couples eqs)) closed
    /\ (s = None <-> n = 1).
  Proof.
    unfold cross_covariance_system. unfold nfields. destruct (Nat.eqb_spec n 1) as [H1|H1].
    { exists None. split; [reflexivity|]. split; [|tauto]. split; [|intros q []].
      unfold couples, fields, nfields. rewrite H1. reflexivity. }
    destruct error_ok as (es & Hes & Hsh). destruct (trends_ok es _ _ Hsh) as (tr & Htr & Hd).
    rewrite Hes. cbn [bind]. rewrite Htr. cbn [bind].
    destruct (mapM_shaped (covariance_equation enum enumD enumC enumF enumU coords eqs tr) (fun ij => FCov (fst ij) (snd ij)) (couples eqs) closed) as (s & Hs & Hsh').
    - intros [i j] Hij. apply couples_in in Hij. destruct Hij as [Hij Hj]. unfold covariance_equation.
      destruct internal_ok as (cl & Hcl & He & _ & _ & Hk). rewrite Hcl. cbn [bind].
      destruct (dget_key_ex jets_eq_dec _ _ (Hk i j Hij Hj)) as (v & Hv). unfold dgetE. rewrite Hv. cbn [bind].
      assert (Hvi : v = pfn (FCov i j)).
      { apply dget_Some_In in Hv. destruct (He _ Hv) as (_ & _ & _ & H). apply H; [exact Hij|]. cbn [fst].
        unfold jkey, mmul. cbn [map fold_right fst snd]. unfold mins at 2. cbn [inverse insert_atom]. unfold mins. cbn [inverse insert_atom].
        assert (L : atom_lt (AJet (FErr j) []) (AJet (FErr i) []) = false).
        { unfold atom_lt, acode, jcode, fcode. cbn [app fst snd nlt N.ltb N.compare Pos.compare Pos.compare_cont]. unfold ncode.
          destruct (N.ltb_spec (N.of_nat j) (N.of_nat i)); [lia|]. destruct (N.ltb_spec (N.of_nat i) (N.of_nat j)); [reflexivity|lia]. }
        rewrite L. reflexivity. }
      destruct (apply_ok (sub_fns (enumF (subs_error eqs)) (sub_trends (enumF tr) (expect (pderiv "t" (pmul (pfn (FErr i)) (pfn (FErr j)))))))) as (q & Hq & Hc).
      { apply error_closed, sub_error_trends; [exact Hd|]. apply expect_mixed, (occ_deriv _ _ _ co_okf), pmul_all; apply (occ_fn _ _ _ co_okf); cbn; lia. }
      rewrite Hq. cbn [bind]. eexists. split; [reflexivity|]. cbn [fst snd]. split; [rewrite Hvi; reflexivity|exact Hc].
    - rewrite Hs. cbn [bind]. eexists. split; [reflexivity|]. split; [exact Hsh'|]. split; [discriminate|intros; contradiction].
  Qed.
  Lemma metric_pair_closed es tr i w w' : i < n -> epsilon_system enum enumD enumC enumF enumU coords eqs = Ok es -> trend_dict es = Ok tr ->
    closed (sub_trends (enumF tr) (expect (pderiv "t" (pmul (pjet (FEps i) w) (pjet (FEps i) w'))))).
  Proof.
    intros Hi Hes Htr. destruct epsilon_ok as (es' & Hes' & Hsh). rewrite Hes' in Hes. apply Ok_inj in Hes. subst es'.
    destruct (trends_ok es _ _ Hsh) as (tr' & Htr' & Hd). rewrite Htr' in Htr. apply Ok_inj in Htr. subst tr'.
    apply occ_sub_trends; [exact co_okd| |].
    - intros f v Hin. destruct (Hd f v Hin) as [H1 H2]. apply in_map_iff in H1. destruct H1 as (k & <- & _). split; [intros [H _]; discriminate|].
      intros _ _. eapply occ_weaken; [| | |exact H2]; auto. intros g Hg. unfold mixf, detf. destruct (is_random g); [right; auto|left; destruct Hg; auto].
    - assert (Hoe : oke (FEps i)) by (split; [exact Hi|discriminate]).
      eapply (occ_weaken (detf oke) oke); [| | |apply occ_expect; [auto|apply (occ_deriv _ _ _ co_oke), pmul_all; apply (occ_jet _ _ _ co_oke), Hoe]]; auto.
      intros f [H1 [H2 _]]. split; assumption.
  Qed.
  Lemma metric_ok : exists s, metric_system enum enumD enumC enumF enumU coords eqs = Ok s
    /\ shaped s (map (fun iab => FMet (fst iab) (fst (snd iab)) (snd (snd iab))) (metric_indices coords eqs)) closed.
  Proof.
    destruct epsilon_ok as (es & Hes & Hsh). destruct (trends_ok es _ _ Hsh) as (tr & Htr & Hd).
    unfold metric_system. rewrite Hes. cbn [bind]. rewrite Htr. cbn [bind]. apply mapM_shaped. intros [i [a b]] Hin.
    unfold metric_indices in Hin. apply in_flat_map in Hin. destruct Hin as (i' & Hi & Hin). apply in_map_iff in Hin.
    destruct Hin as ([a' b'] & H & Hu). injection H as -> -> ->. apply fields_in in Hi. apply upper_in in Hu.
    unfold metric_equation.
    destruct (apply_ok (sub_trends (enumF tr) (expect (pderiv "t" (pmul (pjet (FEps i) [coord coords a]) (pjet (FEps i) [coord coords b])))))) as (q & Hq & Hc).
    { apply (metric_pair_closed es tr); assumption. }
    rewrite Hq. cbn [bind]. eexists. split; [reflexivity|]. cbn [fst snd]. split; [|exact Hc].
    unfold metric. destruct (Nat.ltb_spec b a); [lia|reflexivity].
  Qed.

  (** *** external closure, cleaning *)
  Variable closure : edict.
  Hypothesis HC : forall l v, In (l, v) closure -> closed v.

  Lemma shaped_app s fs s' fs' Pr : shaped s fs Pr -> shaped s' fs' Pr -> shaped (s ++ s') (fs ++ fs') Pr.
  Proof.
    intros [H1 H2] [H3 H4]. split; [etransitivity; [apply map_app|]; etransitivity; [|symmetry; apply map_app]; f_equal; assumption|]. intros q Hq. apply in_app_iff in Hq. destruct Hq; auto.
  Qed.
  Lemma shaped_map g s fs gs (Pr Pr' : poly -> Prop) : shaped s fs Pr -> map (fun f => g (td f)) fs = map td gs ->
    (forall p, Pr p -> Pr' (g p)) -> shaped (map (on_eq g) s) gs Pr'.
  Proof.
    intros [H1 H2] Hg Hp. split.
    - rewrite map_map. cbn [on_eq fst]. rewrite <- Hg. transitivity (map g (map fst s)); [rewrite map_map; reflexivity|]. rewrite H1, map_map. reflexivity.
    - intros q Hq. apply in_map_iff in Hq. destruct Hq as (q' & <- & Hq). cbn [on_eq snd]. apply Hp, H2, Hq.
  Qed.
  Lemma apply_closure_shaped s fs : shaped s fs closed -> shaped (apply_closure enumC closure s) fs closed.
  Proof.
    intros H. unfold apply_closure. destruct closure as [|kv r] eqn:E; [exact H|]. rewrite <- E in *.
    apply (shaped_map _ s fs fs closed); [exact H| |].
    - apply map_ext. intros f. apply td_sub_exps.
    - intros p Hp. apply closed_exps; assumption.
  Qed.

  Notation means := (map (fun i => (FMean i, pfn (FField i))) (fields eqs)).
  Definition unmean (f : fn) : fn := match f with FMean i => FField i | _ => f end.
  Definition not_mean (f : fn) : Prop := forall i, f <> FMean i.
  Definition lhs_fn (f : fn) : Prop := okf f /\ forall k dp, f <> FExt k dp.
  Lemma mean_key_is f : In f (map fst (enumF means)) -> exists i, f = FMean i.
  Proof.
    intros H. apply (Permutation_in _ (Permutation_map fst (HenumF _))) in H. rewrite map_map in H.
    apply in_map_iff in H. destruct H as (i & <- & _). exists i. reflexivity.
  Qed.
  Lemma td_clean f : lhs_fn f -> sub_fns (enumF means) (td f) = td (unmean f).
  Proof.
    intros [Hf He]. destruct (Permutation_map_inv _ _ (HenumF means)) as (l & Hl & HP). rewrite Hl.
    assert (Hfix : forall f l, not_mean f -> (forall k dp, f <> FExt k dp) -> sub_fns (map (fun i => (FMean i, pfn (FField i))) l) (td f) = td f).
    { intros f0 l0 Hm He0. apply td_sub_fns; [|exact He0]. intros g v Hin. apply in_map_iff in Hin. destruct Hin as (i & H & _).
      apply pair_inj in H. destruct H as [<- _]. intros <-. exact (Hm i eq_refl). }
    destruct f; try (cbn [unmean]; apply Hfix; [intros ?; discriminate|exact He]).
    cbn [unmean]. cbn in Hf. assert (Hin : In i l) by (apply (Permutation_in _ HP), fields_in, Hf). clear HP Hl.
    induction l as [|j l IH]; [destruct Hin|]. unfold sub_fns. cbn [map fold_left fst snd].
    destruct (Nat.eq_dec j i) as [->|Hji].
    - transitivity (sub_fns (map (fun i => (FMean i, pfn (FField i))) l) (td (FField i))); [|apply Hfix; discriminate].
      unfold sub_fns. f_equal. unfold sub_fn, psubst, time_derivative. cbn [map fst snd asubst].
      destruct (fn_eq_dec (FMean i) (FMean i)) as [_|]; [reflexivity|congruence].
    - destruct Hin as [->|Hin]; [congruence|]. rewrite td_sub_fn by (discriminate || congruence). exact (IH Hin).
  Qed.
  Lemma clean_gone (Fo : fn -> Prop) p : coherent Fo sigf -> (forall f, Fo f -> okd f) -> (forall i, Fo (FMean i) -> Fo (FField i)) ->
    pall (occ Fo oke sigf) p -> pall (occ (fun f => Fo f /\ not_mean f) oke sigf) (sub_fns (enumF means) p).
  Proof.
    intros HCo Hsub Hmf Hp.
    eapply (occ_weaken (fun f => Fo f /\ ~ In f (map fst (enumF means))) (fun f => oke f /\ ~ In f (map fst (enumF means)))).
    - intros f [H1 H2]. split; [exact H1|]. intros i ->. apply H2.
      apply (Permutation_in _ (Permutation_map fst (Permutation_sym (HenumF _)))). rewrite map_map. apply in_map_iff. exists i.
      split; [reflexivity|]. apply fields_in. exact (proj2 (Hsub _ H1)).
    - intros f [H1 _]. exact H1.
    - intros i H. exact H.
    - apply occ_sub_fns_gone; [exact HCo| | |exact Hp].
      + intros i H. destruct (mean_key_is _ H); discriminate.
      + intros f v Hin. apply (Permutation_in _ (HenumF _)) in Hin. apply in_map_iff in Hin. destruct Hin as (j & H & Hj).
        apply pair_inj in H. destruct H as [<- <-]. split; [|discriminate].
        intros Hf. apply pall_atom. cbn. split; [apply Hmf, Hf|]. intros H. destruct (mean_key_is _ H); discriminate.
  Qed.
  Definition cleaned : poly -> Prop := pall (occ (fun f => okd f /\ not_mean f) oke sigf).
  Lemma clean_shaped s fs : (forall f, In f fs -> lhs_fn f) -> shaped s fs closed -> shaped (clean enumF eqs s) (map unmean fs) cleaned.
  Proof.
    intros Hl Hs. unfold clean. apply (shaped_map _ s fs _ closed); [exact Hs| |].
    - rewrite map_map. apply map_ext_in. intros f Hf. apply td_clean, Hl, Hf.
    - intros p Hp. apply (clean_gone okd); [exact co_okd|auto|intros i [_ H]; split; [reflexivity|exact H]|exact Hp].
  Qed.
  Lemma lhs_each g (l : list nat) : (forall i, In i l -> lhs_fn (g i)) -> forall f, In f (map g l) -> lhs_fn f.
  Proof. intros H f Hf. apply in_map_iff in Hf. destruct Hf as (i & <- & Hi). auto. Qed.
  Lemma indices_in i a b : In (i, (a, b)) (metric_indices coords eqs) <-> i < n /\ a <= b /\ b < List.length coords.
  Proof.
    unfold metric_indices. rewrite in_flat_map. split.
    - intros (j & Hj & H). apply in_map_iff in H. destruct H as ([c d] & H & Hu). injection H as -> -> ->.
      apply fields_in in Hj. apply upper_in in Hu. unfold dim in Hu. lia.
    - intros (H1 & H2 & H3). exists i. split; [apply fields_in, H1|]. apply in_map_iff. exists (a, b). split; [reflexivity|].
      apply upper_in. unfold dim. lia.
  Qed.

  Definition metric_lhs : list fn :=
    map FField (fields eqs) ++ map FVar (fields eqs) ++ map (fun ij => FCov (fst ij) (snd ij)) (couples eqs)
    ++ map (fun iab => FMet (fst iab) (fst (snd iab)) (snd (snd iab))) (metric_indices coords eqs).
  Lemma lhs_mean f : In f (map FMean (fields eqs)) -> lhs_fn f.
  Proof. apply lhs_each. intros i Hi. apply fields_in in Hi. split; [exact Hi|discriminate]. Qed.
  Lemma lhs_var f : In f (map FVar (fields eqs)) -> lhs_fn f.
  Proof. apply lhs_each. intros i Hi. apply fields_in in Hi. split; [exact Hi|discriminate]. Qed.
  Lemma lhs_cov f : In f (map (fun ij => FCov (fst ij) (snd ij)) (couples eqs)) -> lhs_fn f.
  Proof.
    intros Hf. apply in_map_iff in Hf. destruct Hf as ([i j] & <- & Hij). apply couples_in in Hij. split; [exact Hij|discriminate].
  Qed.
  Lemma lhs_met g f : (forall i a b, i < n -> a <= b -> b < List.length coords -> lhs_fn (g i a b)) ->
    In f (map (fun iab => g (fst iab) (fst (snd iab)) (snd (snd iab))) (metric_indices coords eqs)) -> lhs_fn f.
  Proof.
    intros Hg Hf. apply in_map_iff in Hf. destruct Hf as ([i [a b]] & <- & Hi). apply indices_in in Hi. cbn [fst snd]. apply Hg; lia.
  Qed.

  Lemma in_metric_ok : exists s, in_metric enum enumD enumC enumF enumU coords eqs closure = Ok s /\ shaped s metric_lhs cleaned.
  Proof.
    destruct expectation_ok as (e & He & Hse). destruct variance_ok as (v & Hv & Hsv). destruct covariance_ok as (c & Hc & Hsc & _).
    destruct metric_ok as (m & Hm & Hsm). unfold in_metric. rewrite He. cbn [bind]. rewrite Hv. cbn [bind]. rewrite Hc. cbn [bind].
    rewrite Hm. cbn [bind]. eexists. split; [reflexivity|].
    apply apply_closure_shaped in Hse, Hsv, Hsc, Hsm.
    apply (clean_shaped _ _ lhs_mean) in Hse. apply (clean_shaped _ _ lhs_var) in Hsv. apply (clean_shaped _ _ lhs_cov) in Hsc.
    apply clean_shaped in Hsm; [|intros f; apply lhs_met; intros; split; [cbn; auto|discriminate]].
    rewrite !map_map in *. unfold metric_lhs. repeat apply shaped_app; assumption.
  Qed.

  Section Tensor.
    Variables (tensor inv : nat -> nat -> nat -> fn) (scale factor : Q).
    Definition not_metric (f : fn) : Prop := forall i a b, f <> FMet i a b.
    Hypothesis HT : forall i a b, i < n -> a <= b -> b < List.length coords ->
      okd (tensor i a b) /\ not_metric (tensor i a b) /\ not_mean (tensor i a b) /\ forall k dp, tensor i a b <> FExt k dp.
    Hypothesis HI : forall i a b, i < n -> a <= b -> b < List.length coords ->
      okd (inv i a b) /\ not_metric (inv i a b) /\ not_mean (inv i a b).

    Notation mtt := (metric_to_tensor coords eqs inv scale).
    Lemma mtt_key_is f : In f (map fst (enumF mtt)) <-> exists i a b, f = FMet i a b /\ i < n /\ a <= b /\ b < List.length coords.
    Proof.
      split.
      - intros H. apply (Permutation_in _ (Permutation_map fst (HenumF _))) in H. apply in_map_iff in H.
        destruct H as ([g v] & <- & H). unfold metric_to_tensor in H. apply in_flat_map in H. destruct H as (i & Hi & H).
        apply in_map_iff in H. destruct H as ([a b] & H & Hu). apply pair_inj in H. destruct H as [<- _]. cbn [fst snd].
        apply fields_in in Hi. apply upper_in in Hu. unfold dim in Hu. exists i, a, b. unfold metric. destruct (Nat.ltb_spec b a); [lia|]. split; [reflexivity|lia].
      - intros (i & a & b & -> & H1 & H2 & H3). apply (Permutation_in _ (Permutation_map fst (Permutation_sym (HenumF _)))).
        apply in_map_iff. exists (FMet i a b, pscale scale (pfn (inv i a b))). split; [reflexivity|]. unfold metric_to_tensor.
        apply in_flat_map. exists i. split; [apply fields_in, H1|]. apply in_map_iff. exists (a, b). cbn [fst snd].
        split; [|apply upper_in; unfold dim; lia]. unfold metric. destruct (Nat.ltb_spec b a); [lia|reflexivity].
    Qed.
    Definition tens : poly -> Prop := pall (occ (fun f => okd f /\ not_metric f) oke sigf).
    Lemma co_tens : coherent (fun f => okd f /\ not_metric f) sigf.
    Proof. intros i. split; [intros [[_ H] _]; exact H|]. intros H. split; [split; [reflexivity|exact H]|]. intros j a b. discriminate. Qed.
    Lemma mtt_gone p : closed p -> tens (sub_fns (enumF mtt) p).
    Proof.
      intros Hp.
      eapply (occ_weaken (fun f => okd f /\ ~ In f (map fst (enumF mtt))) (fun f => oke f /\ ~ In f (map fst (enumF mtt)))).
      - intros f [H1 H2]. split; [exact H1|]. intros i a b ->. apply H2, mtt_key_is. exists i, a, b. split; [reflexivity|exact (proj2 H1)].
      - intros f [H1 _]. exact H1.
      - intros i H. exact H.
      - apply occ_sub_fns_gone; [exact co_okd| | |exact Hp].
        + intros i H. apply mtt_key_is in H. destruct H as (? & ? & ? & ? & _). discriminate.
        + intros f v Hin. apply (Permutation_in _ (HenumF _)) in Hin. unfold metric_to_tensor in Hin. apply in_flat_map in Hin.
          destruct Hin as (i & Hi & Hin). apply in_map_iff in Hin. destruct Hin as ([a b] & H & Hu). apply pair_inj in H. destruct H as [<- <-].
          apply fields_in in Hi. apply upper_in in Hu. unfold dim in Hu. cbn [fst snd]. split.
          * intros _. apply pscale_all. destruct (HI i a b) as (H1 & H2 & _); try lia.
            apply occ_fn; [|split; [exact H1|]; intros H; apply mtt_key_is in H; destruct H as (? & ? & ? & H & _); exact (H2 _ _ _ H)].
            intros k. split; [intros [[_ H] _]; exact H|]. intros H. split; [split; [reflexivity|exact H]|].
            intros Hk. apply mtt_key_is in Hk. destruct Hk as (? & ? & ? & Hk & _). discriminate.
          * unfold metric. destruct (Nat.ltb b a); discriminate.
    Qed.
    Lemma mtt_td f : lhs_fn f -> not_metric f -> sub_fns (enumF mtt) (td f) = td f.
    Proof.
      intros [_ He] Hm. apply td_sub_fns; [|exact He]. intros g v Hin <-.
      assert (K : In g (map fst (enumF mtt))) by (apply in_map_iff; exists (g, v); split; [reflexivity|exact Hin]).
      apply mtt_key_is in K. destruct K as (i & a & b & K & _). exact (Hm _ _ _ K).
    Qed.
    Lemma mtt_shaped s fs : (forall f, In f fs -> lhs_fn f /\ not_metric f) -> shaped s fs closed -> shaped (map (on_eq (sub_fns (enumF mtt))) s) fs tens.
    Proof.
      intros Hl Hs. apply (shaped_map _ s fs fs closed); [exact Hs| |apply mtt_gone].
      apply map_ext_in. intros f Hf. apply mtt_td; apply Hl, Hf.
    Qed.
    Definition tensor_cleaned : poly -> Prop := pall (occ (fun f => (okd f /\ not_metric f) /\ not_mean f) oke sigf).
    Lemma tensor_clean s fs : (forall f, In f fs -> lhs_fn f) -> shaped s fs tens -> shaped (clean enumF eqs s) (map unmean fs) tensor_cleaned.
    Proof.
      intros Hl Hs. unfold clean. apply (shaped_map _ s fs _ tens); [exact Hs| |].
      - rewrite map_map. apply map_ext_in. intros f Hf. apply td_clean, Hl, Hf.
      - intros p Hp. apply clean_gone; [exact co_tens|intros f [? _]; assumption| |exact Hp].
        intros i [[_ H] _]. split; [split; [reflexivity|exact H]|]. intros j a b. discriminate.
    Qed.
    Lemma sym_ok i a b : i < n -> a < List.length coords -> b < List.length coords -> okd (sym tensor i a b).
    Proof. intros H1 H2 H3. unfold sym. destruct (Nat.ltb_spec b a); apply HT; lia. Qed.
    Lemma tensor_trend_closed i a b : i < n -> a < List.length coords -> b < List.length coords -> closed (tensor_trend coords tensor factor i a b).
    Proof.
      intros Hi Ha Hb. unfold tensor_trend. apply pscale_all, psum_all. intros p Hp. apply in_flat_map in Hp. destruct Hp as (c & Hc & Hp).
      apply in_map_iff in Hp. destruct Hp as (d & <- & Hd). apply in_seq in Hc, Hd. unfold dim in Hc, Hd.
      repeat apply pmul_all.
      - apply closed_fn, sym_ok; lia.
      - apply (occ_jet _ _ _ co_okd). unfold metric. destruct (Nat.ltb_spec d c); split; cbn; try reflexivity; lia.
      - apply closed_fn, sym_ok; lia.
    Qed.

    Definition tensor_lhs (with_covariance : bool) : list fn :=
      map FField (fields eqs) ++ map FVar (fields eqs)
      ++ (if with_covariance then map (fun ij => FCov (fst ij) (snd ij)) (couples eqs) else [])
      ++ map (fun iab => tensor (fst iab) (fst (snd iab)) (snd (snd iab))) (metric_indices coords eqs).
    Lemma in_tensor_ok cov : exists s, in_tensor enum enumD enumC enumF enumU coords eqs closure tensor inv scale factor cov = Ok s
      /\ shaped s (tensor_lhs cov) tensor_cleaned.
    Proof.
      destruct expectation_ok as (e & He & Hse). destruct variance_ok as (v & Hv & Hsv). destruct covariance_ok as (c & Hc & Hsc & _).
      destruct metric_ok as (m & Hm & Hsm). apply apply_closure_shaped in Hse, Hsv, Hsc, Hsm.
      destruct (trends_ok _ _ _ Hsm) as (tr & Htr & Hd).
      unfold in_tensor. rewrite Hm. cbn [bind]. rewrite Htr. cbn [bind]. rewrite He. cbn [bind]. rewrite Hv. cbn [bind].
      assert (Hten : shaped (map (tensor_equation enumF coords eqs tensor inv scale factor tr) (metric_indices coords eqs))
                       (map (fun iab => tensor (fst iab) (fst (snd iab)) (snd (snd iab))) (metric_indices coords eqs)) tens).
      { split.
        - rewrite !map_map. apply map_ext_in. intros [i [a b]] Hi. apply indices_in in Hi. unfold tensor_equation. cbn [fst snd].
          unfold sym. destruct (Nat.ltb_spec b a); [lia|]. destruct (HT i a b) as (_ & _ & _ & H0); try lia. apply td_pjet, H0.
        - intros q Hq. apply in_map_iff in Hq. destruct Hq as ([i [a b]] & <- & Hi). apply indices_in in Hi. unfold tensor_equation. cbn [snd].
          apply mtt_gone. apply occ_sub_trends; [exact co_okd| |apply tensor_trend_closed; lia].
          intros f w Hin. destruct (Hd f w Hin) as [H1 H2]. split; [intros _; exact H2|]. apply in_map_iff in H1. destruct H1 as (iab & <- & _). discriminate. }
      assert (Hnm : forall f, In f (map FMean (fields eqs)) -> lhs_fn f /\ not_metric f).
      { intros f Hf. split; [apply lhs_mean, Hf|]. apply in_map_iff in Hf. destruct Hf as (i & <- & _). intros j a b. discriminate. }
      assert (Hnv : forall f, In f (map FVar (fields eqs)) -> lhs_fn f /\ not_metric f).
      { intros f Hf. split; [apply lhs_var, Hf|]. apply in_map_iff in Hf. destruct Hf as (i & <- & _). intros j a b. discriminate. }
      assert (Hnc : forall f, In f (map (fun ij => FCov (fst ij) (snd ij)) (couples eqs)) -> lhs_fn f /\ not_metric f).
      { intros f Hf. split; [apply lhs_cov, Hf|]. apply in_map_iff in Hf. destruct Hf as (i & <- & _). intros j a b. discriminate. }
      assert (Hnt : forall f, In f (map (fun iab => tensor (fst iab) (fst (snd iab)) (snd (snd iab))) (metric_indices coords eqs)) -> lhs_fn f).
      { intros f. apply lhs_met. intros i a b H1 H2 H3. destruct (HT i a b H1 H2 H3) as ([_ H4] & _ & _ & H5). split; assumption. }
      apply (mtt_shaped _ _ Hnm) in Hse. apply (mtt_shaped _ _ Hnv) in Hsv. apply (mtt_shaped _ _ Hnc) in Hsc.
      assert (Hun : map unmean (map (fun iab => tensor (fst iab) (fst (snd iab)) (snd (snd iab))) (metric_indices coords eqs))
                    = map (fun iab => tensor (fst iab) (fst (snd iab)) (snd (snd iab))) (metric_indices coords eqs)).
      { rewrite map_map. apply map_ext_in. intros [i [a b]] Hi. apply indices_in in Hi. cbn [fst snd].
        destruct (HT i a b) as (_ & _ & Hnm' & _); try lia. unfold not_mean in Hnm'. destruct (tensor i a b); try reflexivity. destruct (Hnm' i0 eq_refl). }
      assert (Hcc : exists c', (if cov then cross_covariance_system enum enumD enumC enumF enumU coords eqs else Ok None) = Ok c'
                /\ shaped (map (on_eq (sub_fns (enumF mtt))) (apply_closure enumC closure (optional c')))
                     (if cov then map (fun ij => FCov (fst ij) (snd ij)) (couples eqs) else []) tens).
      { destruct cov; [exists c; split; [exact Hc|exact Hsc]|]. exists None. split; [reflexivity|].
        replace (apply_closure enumC closure (optional None)) with (@nil pequation) by (unfold apply_closure; destruct closure; reflexivity).
        split; [reflexivity|intros q []]. }
      destruct Hcc as (c' & -> & Hsc'). cbn [bind]. eexists. split; [reflexivity|]. rewrite !map_app. rewrite <- !app_assoc.
      assert (Hall := shaped_app _ _ _ _ _ Hse (shaped_app _ _ _ _ _ Hsv (shaped_app _ _ _ _ _ Hsc' Hten))).
      apply tensor_clean in Hall.
      - rewrite !map_app, Hun, !map_map in Hall. unfold tensor_lhs.
        replace (map unmean (if cov then map (fun ij => FCov (fst ij) (snd ij)) (couples eqs) else []))
          with (if cov then map (fun ij => FCov (fst ij) (snd ij)) (couples eqs) else []) in Hall
          by (destruct cov; [rewrite map_map|]; reflexivity).
        exact Hall.
      - intros f Hf. apply in_app_iff in Hf. destruct Hf as [Hf|Hf]; [apply Hnm, Hf|]. apply in_app_iff in Hf.
        destruct Hf as [Hf|Hf]; [apply Hnv, Hf|]. apply in_app_iff in Hf. destruct Hf as [Hf|Hf]; [|apply Hnt, Hf].
        destruct cov; [apply Hnc, Hf|destruct Hf].
    Qed.
  End Tensor.
End Shape.
