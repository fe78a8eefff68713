(** The averages written by the systems have their factors sorted: a product is written in one way only. *)
From Coq Require Import List Arith ZArith NArith QArith Bool String Permutation Sorted Lia.
From Verif Require Import PyBase PyBaseFacts PartialOrderModel PartialOrderProofs TreeModel TreeProofs TreeProps
  PKFModel PKFSpec PKFAlg PKFAtoms PKFClosure PKFProofs PKFInv PKFShape PKFMore PKFWords PKFTime.
Import ListNotations.
Close Scope Q_scope.
Close Scope N_scope.
Close Scope Z_scope.
Open Scope nat_scope.
Open Scope string_scope.
Open Scope list_scope.

(** *** sorted products *)
Lemma nlt_trans a : forall b c, nlt a b = true -> nlt b c = true -> nlt a c = true.
Proof.
  induction a as [|x a IH]; intros [|y b] [|z c]; cbn; try discriminate; try reflexivity.
  destruct (N.ltb_spec x y), (N.ltb_spec y z), (N.ltb_spec x z), (N.ltb_spec y x), (N.ltb_spec z y), (N.ltb_spec z x); try lia; try reflexivity; try discriminate.
  intros H5 H6. exact (IH b c H5 H6).
Qed.
Definition ale (a b : atom) : Prop := atom_lt b a = false.
Lemma ale_trans a b c : ale a b -> ale b c -> ale a c.
Proof.
  unfold ale, atom_lt. intros H1 H2. destruct (nlt (acode c) (acode a)) eqn:H; [|reflexivity].
  destruct (nlt (acode a) (acode b)) eqn:H3.
  - rewrite (nlt_trans _ _ _ H H3) in H2. discriminate.
  - rewrite (nlt_total _ _ H3 H1) in H. congruence.
Qed.
Notation msorted := (StronglySorted ale).
Lemma insert_sorted a m : msorted m -> msorted (insert_atom a m).
Proof.
  induction 1 as [|b r Hr IH Hb]; cbn [insert_atom]; [repeat constructor|].
  destruct (atom_lt b a) eqn:H.
  - constructor; [exact IH|]. rewrite Forall_forall in *. intros x Hx. apply (Permutation_in _ (insert_perm a r)) in Hx. destruct Hx as [<-|Hx]; [|apply Hb, Hx].
    unfold ale. unfold atom_lt in *. apply nlt_asym, H.
  - constructor; [constructor; assumption|]. constructor; [exact H|]. rewrite Forall_forall in *. intros x Hx. apply (ale_trans a b x); [exact H|apply Hb, Hx].
Qed.
Lemma remove_sub a m r : remove_atom a m = Some r -> forall x, In x r -> In x m.
Proof.
  revert r. induction m as [|b m IH]; intros r H; cbn [remove_atom] in H; [discriminate|]. destruct (atom_eq_dec a b); [injection H as <-; intros x Hx; right; exact Hx|].
  destruct (remove_atom a m) as [r'|]; [|discriminate]. injection H as <-. intros x [->|Hx]; [left; reflexivity|right; exact (IH r' eq_refl x Hx)].
Qed.
Lemma remove_sorted a m : msorted m -> forall r, remove_atom a m = Some r -> msorted r.
Proof.
  induction 1 as [|b m Hm IH Hb]; intros r H; cbn [remove_atom] in H; [discriminate|]. destruct (atom_eq_dec a b); [injection H as <-; exact Hm|].
  destruct (remove_atom a m) as [r'|] eqn:Hr; [|discriminate]. injection H as <-. constructor; [exact (IH r' eq_refl)|].
  rewrite Forall_forall in *. intros x Hx. apply Hb, (remove_sub _ _ _ Hr), Hx.
Qed.
Lemma mmul_sorted a b : msorted b -> msorted (mmul a b).
Proof.
  intros Hb. unfold mmul. induction a as [|x a IH]; cbn [fold_right]; [exact Hb|]. unfold mins at 1. destruct (inverse x) as [y|]; [|apply insert_sorted, IH].
  destruct (remove_atom y (fold_right mins b a)) as [r|] eqn:Hr; [exact (remove_sorted _ _ IH r Hr)|apply insert_sorted, IH].
Qed.
Lemma mmul_in a b x : In x (mmul a b) -> In x a \/ In x b.
Proof.
  unfold mmul. induction a as [|y a IH]; cbn [fold_right]; [auto|]. unfold mins at 1. intros H.
  assert (G : In x (insert_atom y (fold_right mins b a)) -> In x (y :: a) \/ In x b).
  { intros K. apply (Permutation_in _ (insert_perm _ _)) in K. destruct K as [->|K]; [left; left; reflexivity|]. destruct (IH K); [left; right; assumption|auto]. }
  destruct (inverse y) as [z|]; [|exact (G H)]. destruct (remove_atom z _) as [r|] eqn:Hr; [|exact (G H)].
  destruct (IH (remove_sub _ _ _ Hr x H)); [left; right; assumption|auto].
Qed.
Lemma filter_sorted f m : msorted m -> msorted (filter f m).
Proof.
  induction 1 as [|b m Hm IH Hb]; cbn [filter]; [constructor|]. destruct (f b); [|exact IH]. constructor; [exact IH|].
  rewrite Forall_forall in *. intros x Hx. apply filter_In in Hx. apply Hb, Hx.
Qed.
Lemma sorted_mmul m : msorted m -> (forall x, In x m -> inverse x = None) -> mmul m [] = m.
Proof.
  induction 1 as [|b m Hm IH Hb]; intros Hi; [reflexivity|]. unfold mmul in *. cbn [fold_right]. rewrite IH by (intros; apply Hi; right; assumption).
  unfold mins. rewrite (Hi b (or_introl eq_refl)). destruct m as [|c m]; [reflexivity|]. cbn [insert_atom].
  rewrite Forall_forall in Hb. pose proof (Hb c (or_introl eq_refl)) as H. unfold ale in H. rewrite H. reflexivity.
Qed.
Lemma jatoms_random m : map (fun j => AJet (fst j) (snd j)) (random_jets m) = filter (fun a => match a with AJet f _ => is_random f | _ => false end) m.
Proof.
  unfold random_jets. induction m as [|a m IH]; [reflexivity|]. cbn [flat_map filter]. rewrite map_app, IH. destruct a; try reflexivity. destruct (is_random f); reflexivity.
Qed.
Lemma random_canonical m : msorted m -> jkey (random_jets m) = random_jets m.
Proof.
  intros Hm. unfold jkey. rewrite jatoms_random. rewrite sorted_mmul; [|apply filter_sorted, Hm|].
  - unfold random_jets. clear Hm. induction m as [|a m IH]; [reflexivity|]. cbn [filter flat_map]. destruct a; cbn [filter flat_map app]; try exact IH.
    destruct (is_random f) eqn:Hf; cbn [flat_map app]; [rewrite Hf; cbn [app]; f_equal; exact IH|exact IH].
  - intros x Hx. apply filter_In in Hx. destruct x; try reflexivity; destruct Hx; discriminate.
Qed.

(** *** canonical expressions *)
Definition cexp (a : atom) : Prop :=
  match a with AExp w l => jkey l = l /\ l <> [] /\ (forall j, l = [j] -> snd j = []) | _ => True end.
Definition canonical (m : mono) : Prop := msorted m /\ mall cexp m.
Notation canon := (pmall canonical).
Lemma canon_all p : canon p -> pall cexp p.
Proof. intros H c m Hm. apply (H c m Hm). Qed.
Lemma canon_mmul m m' : mall cexp m -> canonical m' -> canonical (mmul m m').
Proof. intros H [H1 H2]. split; [apply mmul_sorted, H1|]. intros a Ha. apply mmul_in in Ha. destruct Ha; auto. Qed.
Lemma canon_pmulm c m p : mall cexp m -> canon p -> canon (pmulm c m p).
Proof. intros H. apply (pmulm_m canonical). intros m'. apply canon_mmul, H. Qed.
Lemma canon_pmul p q : canon p -> canon q -> canon (pmul p q).
Proof. apply (pmul_m canonical canonical). intros m m' [_ H] H'. apply canon_mmul; assumption. Qed.
Lemma canon_one : canon pone.
Proof. intros c m [H|[]]. injection H as <- <-. split; [constructor|intros a []]. Qed.
Lemma canon_nil : canon [].
Proof. intros c m []. Qed.
Lemma canon_pprod l : (forall p, In p l -> canon p) -> canon (pprod l).
Proof.
  unfold pprod. induction l as [|p l IH]; intros H; cbn [fold_right]; [apply canon_one|].
  apply canon_pmul; [apply H; left; reflexivity|apply IH; intros; apply H; right; assumption].
Qed.
Lemma canon_single c a : cexp a -> canon [(c, [a])].
Proof. intros H c' m [E|[]]. injection E as <- <-. split; [repeat constructor|]. intros b [<-|[]]. exact H. Qed.
Lemma canon_pjet f w : canon (pjet f w).
Proof.
  unfold pjet. destruct f; try (apply canon_single; exact I); [destruct w as [|c w]; [|apply canon_single; exact I]|].
  - intros c m [E|[]]. injection E as <- <-. split; [|intros a [<-|[<-|[]]]; exact I]. repeat constructor. unfold ale, atom_lt, acode. cbn.
    destruct (N.ltb_spec (ncode i) (ncode i)); [lia|reflexivity].
  - destruct (forallb _ w); [apply canon_single; exact I|apply canon_nil].
Qed.
Lemma canon_patom a : cexp a -> canon (patom a).
Proof. intros H. unfold patom, mins. destruct (inverse a); cbn [remove_atom insert_atom]; apply canon_single, H. Qed.
Lemma canon_datom c a : cexp a -> canon (datom c a).
Proof.
  destruct a; cbn [datom]; intros H; try apply canon_pjet; try apply canon_nil.
  - apply canon_single. exact H.
  - apply canon_pmulm; [intros b [<-|[]]; exact I|apply canon_pjet].
  - apply canon_pmulm; [intros b [<-|[<-|[<-|[]]]]; exact I|apply canon_pjet].
Qed.
Lemma canon_deriv c p : pall cexp p -> canon (pderiv c p).
Proof.
  intros Hp. unfold pderiv. induction p as [|t p IH]; cbn [fold_right]; [apply canon_nil|].
  apply padd_m; [apply pscale_m|apply IH, (pall_tail _ _ _ Hp)]. pose proof (pall_head _ _ _ Hp) as Hm. revert Hm. generalize (snd t). intros m.
  induction m as [|a r IHm]; intros Hm; cbn [dmono]; [apply canon_nil|].
  assert (Ha : cexp a) by (apply Hm; left; reflexivity).
  assert (Hr : mall cexp r) by (intros b Hb; apply Hm; right; exact Hb).
  apply padd_m; apply canon_pmulm; auto; [apply canon_datom, Ha|]. intros b [<-|[]]. exact Ha.
Qed.
Lemma canon_derivs w p : canon p -> canon (pderivs w p).
Proof. intros Hp. unfold pderivs. induction w as [|c w IH]; cbn [fold_right]; [exact Hp|]. apply canon_deriv, canon_all, IH. Qed.
Lemma canon_expect p : canon p -> canon (expect p).
Proof.
  intros Hp. unfold expect. apply psum_m. intros q Hq. apply in_map_iff in Hq. destruct Hq as ([c m] & <- & Hm). cbn [fst snd].
  destruct (Hp c m Hm) as [H1 H2]. apply canon_pmulm; [intros a Ha; apply filter_In in Ha; apply H2, Ha|].
  pose proof (random_canonical m H1) as HK.
  assert (HR : forall j, In j (random_jets m) -> is_random (fst j) = true).
  { intros j Hj. unfold random_jets in Hj. apply in_flat_map in Hj. destruct Hj as (a & Ha & Hj).
    destruct a; try destruct Hj. destruct (is_random f) eqn:Hr; [|destruct Hj]. destruct Hj as [<-|[]]. exact Hr. }
  destruct (random_jets m) as [|[f w] [|j l]]; cbn [expect_jets]; [apply canon_one| |].
  - apply canon_single. split; [|split; [discriminate|intros j [= <-]; reflexivity]]. specialize (HR _ (or_introl eq_refl)). cbn [fst] in HR.
    unfold jkey, mmul, mins, random_jets. cbn [map fold_right inverse insert_atom flat_map fst snd]. rewrite HR. reflexivity.
  - apply canon_single. split; [exact HK|split; [discriminate|intros j' H; discriminate]].
Qed.
Lemma canon_filter f p : canon p -> canon (filter f p).
Proof. intros H c m Hm. apply filter_In in Hm. apply (H c m), Hm. Qed.
Lemma canon_small p : canon p -> canon (small_one p).
Proof.
  intros H. unfold small_one. apply psum_m. intros q Hq. apply in_map_iff in Hq. destruct Hq as ([c m] & <- & Hm). cbn [fst snd].
  apply pins_m; [|apply canon_nil]. destruct (H c m Hm) as [H1 H2]. split; [apply filter_sorted, H1|]. intros a Ha. apply filter_In in Ha. apply H2, Ha.
Qed.
Lemma canon_psub p q : canon p -> canon q -> canon (psub p q).
Proof. intros Hp Hq. apply padd_m; [exact Hp|apply pscale_m, Hq]. Qed.
(** a substitution rebuilds everything *)
Lemma canon_psubst g p : (forall f w, canon (g f w)) -> canon (psubst g p).
Proof.
  intros Hg. unfold psubst. apply psum_m. intros q Hq. apply in_map_iff in Hq. destruct Hq as (t & <- & _). apply pscale_m, canon_pprod.
  intros r Hr. apply in_map_iff in Hr. destruct Hr as (a & <- & _). destruct a as [f w|w l|k| |i|i]; cbn [asubst]; try (apply canon_patom; exact I).
  - apply Hg.
  - apply canon_derivs, canon_expect, canon_pprod. intros s Hs. apply in_map_iff in Hs. destruct Hs as (j & <- & _). apply Hg.
Qed.
Lemma canon_sub_fn f v p : canon v -> canon (sub_fn f v p).
Proof. intros Hv. apply canon_psubst. intros f' w. destruct (fn_eq_dec f' f); [apply canon_derivs, Hv|apply canon_pjet]. Qed.
Lemma canon_sub_fns d : forall p, (forall f v, In (f, v) d -> canon v) -> canon p \/ d <> [] -> canon (sub_fns d p).
Proof.
  unfold sub_fns. induction d as [|[f v] d IH]; intros p Hd Hp; cbn [fold_left]; [destruct Hp; [assumption|congruence]|].
  apply IH; [intros f' v' H; apply (Hd f' v'); right; exact H|]. left. apply canon_sub_fn, (Hd f v). left; reflexivity.
Qed.
Lemma canon_sub_trends d : forall p, (forall f v, In (f, v) d -> canon v) -> canon p -> canon (sub_trends d p).
Proof.
  unfold sub_trends. induction d as [|[f v] d IH]; intros p Hd Hp; cbn [fold_left]; [exact Hp|].
  apply IH; [intros f' v' H; apply (Hd f' v'); right; exact H|]. apply canon_psubst. intros f' w. cbn [fst snd].
  destruct (fn_eq_dec f' f); [destruct (wremove "t" w); [apply canon_derivs, (Hd f v); left; reflexivity|]|]; apply canon_pjet.
Qed.
Lemma canon_sub_exps d : forall p, (forall l v, In (l, v) d -> canon v) -> canon p -> canon (sub_exps d p).
Proof.
  unfold sub_exps. induction d as [|[l v] d IH]; intros p Hd Hp; cbn [fold_left]; [exact Hp|].
  apply IH; [intros l' v' H; apply (Hd l' v'); right; exact H|]. cbn [fst snd]. unfold sub_exp. apply psum_m. intros q Hq.
  apply in_map_iff in Hq. destruct Hq as ([c m] & <- & Hm). cbn [fst snd]. apply pscale_m, canon_pprod. intros r Hr. apply in_map_iff in Hr.
  destruct Hr as (a & <- & Ha). destruct (Hp c m Hm) as [_ H2]. specialize (H2 a Ha). destruct a; try (apply canon_patom; exact H2).
  destruct (jets_eq_dec l0 l); [apply canon_derivs, (Hd l v); left; reflexivity|apply canon_patom, H2].
Qed.

Section Canon.
  Variables (enum : list mi -> list mi) (enumD : tdict -> tdict) (enumC : edict -> edict)
    (enumF : list (fn * poly) -> list (fn * poly)) (enumU : list fn -> list fn).
  Variables (coords : list string) (eqs : list poly).
  Hypothesis Henum : forall l, Permutation (enum l) l.
  Hypothesis HenumC : forall l, Permutation (enumC l) l.
  Hypothesis HenumF : forall l, Permutation (enumF l) l.
  Hypothesis Hne : coords <> [].
  Notation n := (List.length eqs).

  Lemma skewness_canon i p l v : skewness_entry coords i p = Ok (l, v) -> canon v.
  Proof.
    intros H. unfold skewness_entry in H. destruct (as_sequence p) as [|k [|a [|b [|]]]]; try discriminate. unfold skewness_subs in H.
    destruct (metric_of coords i k b) as [g1|]; cbn [bind] in H; [|discriminate].
    destruct (metric_of coords i a k) as [g2|]; cbn [bind] in H; [|discriminate].
    destruct (metric_of coords i a b) as [g3|]; cbn [bind] in H; [|discriminate].
    apply Ok_inj, pair_inj in H. destruct H as [_ <-]. apply pscale_m. repeat apply padd_m; apply canon_pjet.
  Qed.
  Lemma field_closure_canon i d : field_closure enum coords i = Ok d -> forall l v, In (l, v) d -> canon v.
  Proof.
    unfold field_closure. destruct (all_of_degree enum coords 3) as [ps|]; cbn [bind]; [|discriminate].
    destruct (mapM (skewness_entry coords i) ps) as [sk|] eqn:Hsk; cbn [bind]; [|discriminate].
    intros H l v Hin. apply Ok_inj in H. subst d. apply in_app_iff in Hin. destruct Hin as [Hin|Hin].
    2:{ destruct (mapM_in _ _ _ _ Hsk Hin) as (p & _ & He). exact (skewness_canon i p l v He). }
    apply in_app_iff in Hin. destruct Hin as [[H|[H|[H|[H|[]]]]]|Hin].
    - apply pair_inj in H. destruct H as [_ <-]. apply canon_nil.
    - apply pair_inj in H. destruct H as [_ <-]. apply canon_pjet.
    - apply pair_inj in H. destruct H as [_ <-]. apply canon_nil.
    - apply pair_inj in H. destruct H as [_ <-]. apply canon_one.
    - apply in_app_iff in Hin. destruct Hin as [Hin|Hin]; apply in_map_iff in Hin; destruct Hin as (c & H & _); apply pair_inj in H; destruct H as [_ <-].
      + apply canon_nil. + apply pscale_m, canon_pjet.
  Qed.
  Lemma internal_canon cl : internal_closure enum coords eqs = Ok cl -> forall l v, In (l, v) cl -> canon v.
  Proof.
    unfold internal_closure. destruct (mapM (field_closure enum coords) (fields eqs)) as [ds|] eqn:Hds; cbn [bind]; [|discriminate].
    intros H. apply Ok_inj in H. subst cl.
    change (fold_left _ (couples eqs) (fold_left dupdate ds [])) with (fold_left cov_step (couples eqs) (fold_left dupdate ds [])).
    assert (G : forall l d, (forall k v, In (k, v) d -> canon v) -> forall k v, In (k, v) (fold_left cov_step l d) -> canon v).
    { induction l as [|[i j] l IH]; intros d Hd; cbn [fold_left]; [exact Hd|]. apply IH. intros k v Hin. unfold cov_step in Hin.
      apply in_dset in Hin. destruct Hin as [[_ ->]|Hin].
      - apply canon_pmulm; [intros a [<-|[<-|[]]]; exact I|apply canon_pjet].
      - apply in_dset in Hin. destruct Hin as [[_ ->]|Hin]; [apply canon_pjet|exact (Hd k v Hin)]. }
    apply G. intros k v Hin. apply in_dupdates in Hin. destruct Hin as [[]|(d & Hd & Hin)].
    destruct (mapM_in _ _ _ _ Hds Hd) as (i & _ & He). exact (field_closure_canon i d He k v Hin).
  Qed.
  Lemma exps_canon d p : (forall l v, In (l, v) d -> canon v) -> canon p -> canon (sub_exps (enumC d) p).
  Proof. intros Hd. apply canon_sub_exps. intros l v Hin. apply (Hd l v), (Permutation_in _ (HenumC d)), Hin. Qed.
  Lemma enumF_ne d : d <> [] -> enumF d <> [].
  Proof. intros H E. apply H. pose proof (HenumF d) as HP. rewrite E in HP. apply Permutation_nil in HP. exact HP. Qed.
  Lemma reynolds_canon i : i < n -> canon (snd (reynolds enumF eqs i)).
  Proof.
    intros Hi. cbn [reynolds snd]. apply canon_filter, canon_sub_fns.
    - intros f v Hin. apply (Permutation_in _ (HenumF _)), in_map_iff in Hin. destruct Hin as (j & H & _). apply pair_inj in H. destruct H as [<- <-].
      apply padd_m; [apply canon_pjet|]. apply canon_pmulm; [intros a [<-|[]]; exact I|apply canon_pjet].
    - right. apply enumF_ne. unfold fields, nfields. destruct n; [lia|]. discriminate.
  Qed.
  Lemma subs_error_canon p : canon p -> canon (sub_fns (enumF (subs_error eqs)) p).
  Proof.
    intros Hp. apply canon_sub_fns; [|left; exact Hp]. intros f v Hin. apply (Permutation_in _ (HenumF _)), in_map_iff in Hin.
    destruct Hin as (j & H & _). apply pair_inj in H. destruct H as [<- <-]. apply canon_pmulm; [intros a [<-|[]]; exact I|apply canon_pjet].
  Qed.
  Lemma error_canon s : error_system enum enumC enumF coords eqs = Ok s -> forall q, In q s -> canon (snd q).
  Proof.
    unfold error_system, tl_expectation_system. destruct (internal_closure enum coords eqs) as [cl|] eqn:Hcl; cbn [bind]; [|discriminate].
    intros H q Hq. apply Ok_inj in H. subst s. apply in_map_iff in Hq. destruct Hq as ([q1 q2] & <- & Hq). cbn [fst snd].
    unfold first_order_reynolds in Hq. rewrite map_map in Hq.
    pose proof (in_combine_l _ _ _ _ Hq) as H1. pose proof (in_combine_r _ _ _ _ Hq) as H2. apply in_map_iff in H1, H2.
    destruct H1 as (i & <- & Hi), H2 as (j & <- & Hj). apply fields_in in Hi, Hj. cbn [on_eq snd].
    apply canon_psub; [apply canon_small, canon_filter, reynolds_canon, Hi|]. apply exps_canon; [apply internal_canon, Hcl|].
    apply canon_expect, canon_small, canon_filter, reynolds_canon, Hj.
  Qed.
  Lemma tree_value_canon i e : canon (tree_value coords i e).
  Proof.
    unfold tree_value. apply psum_m. intros q Hq. apply in_map_iff in Hq. destruct Hq as ([[c ds] k] & <- & _).
    apply pscale_m, canon_derivs, canon_single. unfold tree_key.
    pose proof (jkey2_perm (FEps i) (FEps i) (word_of coords (fst k)) (word_of coords (snd k)) eq_refl eq_refl) as HP.
    assert (Hj : forall l, jkey (jkey [(FEps i, fst l); (FEps i, snd l)]) = jkey [(FEps i, fst l); (FEps i, snd l)]).
    { intros [w w']. cbn [fst snd]. unfold jkey at 2 3. apply random_canonical, mmul_sorted. constructor. }
    split; [exact (Hj (word_of coords (fst k), word_of coords (snd k)))|]. split.
    - intros E. rewrite E in HP. apply Permutation_length in HP. discriminate.
    - intros j E. rewrite E in HP. apply Permutation_length in HP. discriminate.
  Qed.
  Lemma apply_canon p q : canon p -> apply_internal_closure enum enumD enumC enumU coords eqs p = Ok q -> canon q.
  Proof.
    intros Hp. unfold apply_internal_closure. destruct (internal_closure enum coords eqs) as [cl|] eqn:Hcl; cbn [bind]; [|discriminate].
    pose proof (internal_canon cl Hcl) as Hc. destruct (existsb _ _); [discriminate|]. set (step := fun (p0 : poly) (f : fn) => _).
    destruct (foldM step p (enumU (dkeys (check_univariate p)))) as [p'|] eqn:HF; cbn [bind]; [|discriminate].
    intros H. apply Ok_inj in H. subst q. apply exps_canon; [exact Hc|].
    refine (foldM_inv (fun p => canon p) _ _ _ _ _ Hp HF). intros s f s' _ Hs Hstep. unfold step in Hstep.
    destruct (field_of eqs f) as [i|]; [|discriminate]. destruct (dgetE fn_eq_dec f (check_univariate p)) as [ns|]; cbn [bind] in Hstep; [|discriminate].
    unfold closed_tree in Hstep. destruct (fst (tree_call enum enumD true coords tree_init (Some (fold_right Nat.max 0 ns)))) as [rules|]; cbn [bind] in Hstep; [|discriminate].
    apply Ok_inj in Hstep. subst s'. apply exps_canon; [|exact Hs]. intros l v Hin. apply in_map_iff in Hin. destruct Hin as (kv & H & _).
    apply pair_inj in H. destruct H as [_ <-]. apply exps_canon; [exact Hc|apply tree_value_canon].
  Qed.
  Lemma trends_canon s d p : (forall q, In q s -> canon (snd q)) -> trend_dict s = Ok d -> canon p -> canon (sub_trends (enumF d) p).
  Proof.
    intros Hs Hd. apply canon_sub_trends. intros f v Hin. apply (Permutation_in _ (HenumF _)) in Hin. unfold trend_dict in Hd.
    destruct (mapM_in _ _ _ _ Hd Hin) as (q & Hq & He). destruct (trend_key (fst q)); cbn [bind] in He; [|discriminate].
    apply Ok_inj, pair_inj in He. destruct He as [_ <-]. apply Hs, Hq.
  Qed.
  Lemma pair_canon f g w w' : canon (expect (pderiv "t" (pmul (pjet f w) (pjet g w')))).
  Proof. apply canon_expect, canon_deriv, canon_all, canon_pmul; apply canon_pjet. Qed.
  Lemma variance_canon s : variance_system enum enumD enumC enumF enumU coords eqs = Ok s -> forall q, In q s -> canon (snd q).
  Proof.
    unfold variance_system. destruct (error_system enum enumC enumF coords eqs) as [es|] eqn:Hes; cbn [bind]; [|discriminate].
    destruct (trend_dict es) as [d|] eqn:Hd; cbn [bind]; [|discriminate]. intros H q Hq.
    destruct (mapM_in _ _ _ _ H Hq) as (i & Hi & Hv). unfold variance_equation in Hv.
    destruct (apply_internal_closure _ _ _ _ _ _ _) as [r|] eqn:Hr; cbn [bind] in Hv; [|discriminate]. apply Ok_inj in Hv. subst q. cbn [snd].
    refine (apply_canon _ r _ Hr). apply subs_error_canon, (trends_canon es); [exact (error_canon es Hes)|exact Hd|apply pair_canon].
  Qed.
  Lemma epsilon_canon s : epsilon_system enum enumD enumC enumF enumU coords eqs = Ok s -> forall q, In q s -> canon (snd q).
  Proof.
    unfold epsilon_system. destruct (error_system enum enumC enumF coords eqs) as [es|] eqn:Hes; cbn [bind]; [|discriminate].
    destruct (trend_dict es) as [d|] eqn:Hd; cbn [bind]; [|discriminate].
    destruct (variance_system _ _ _ _ _ _ _) as [vs|] eqn:Hvs; cbn [bind]; [|discriminate].
    destruct (trend_dict vs) as [dv|] eqn:Hdv; cbn [bind]; [|discriminate].
    intros H q Hq. apply Ok_inj in H. subst s. apply in_map_iff in Hq. destruct Hq as (i & <- & Hi). unfold epsilon_equation. cbn [snd].
    apply subs_error_canon, (trends_canon vs); [exact (variance_canon vs Hvs)|exact Hdv|]. apply (trends_canon es); [exact (error_canon es Hes)|exact Hd|].
    apply canon_deriv, canon_all, canon_pmulm; [intros a [<-|[]]; exact I|apply canon_pjet].
  Qed.
End Canon.
