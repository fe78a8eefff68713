(** Histories of calls on a Closure object. *)
From Coq Require Import List Arith ZArith Bool String Permutation Lia.
From Verif Require Import PyBase PyBaseFacts PartialOrderModel PartialOrderSpec PartialOrderProofs NameModel NameProofs ClosureModel ClosureSpec ClosureProofs.
Import ListNotations.
Open Scope list_scope.
Open Scope Z_scope.

Lemma dset_fresh {K V} (eqd : forall a b : K, {a = b} + {a <> b}) k (v : V) d : ~ In k (map fst d) -> dset eqd k v d = d ++ [(k, v)].
Proof.
  induction d as [|[k' v'] d IH]; cbn; intros H; [reflexivity|]. destruct (eqd k k') as [->|_]; [tauto|]. f_equal. apply IH. tauto.
Qed.
Lemma dset_map {K V} (eqd : forall a b : K, {a = b} + {a <> b}) (F : K -> V) k l : In k l -> dset eqd k (F k) (map (fun p => (p, F p)) l) = map (fun p => (p, F p)) l.
Proof.
  induction l as [|a l IH]; cbn; intros H; [tauto|]. destruct (eqd k a) as [->|N]; [reflexivity|]. f_equal. apply IH. destruct H; congruence.
Qed.
Lemma range_S n : range (Z.of_nat (S n)) = range (Z.of_nat n) ++ [Z.of_nat n].
Proof. unfold range. rewrite !Nat2Z.id, seq_S, map_app. reflexivity. Qed.
Lemma in_range n p : In p (range n) <-> 0 <= p < n.
Proof.
  unfold range. rewrite in_map_iff. split.
  - intros (x & <- & H). apply in_seq in H. lia.
  - intros H. exists (Z.to_nat p). split; [lia|]. apply in_seq. lia.
Qed.

Section Hist.
  Variable enum : list (list Z) -> list (list Z).
  Hypothesis Henum : forall l, Permutation (enum l) l.
  Variables (E : Type) (ezero : E) (mulZ : Z -> E -> E) (erase : E -> E) (solve : list (func * func * E) -> E -> E) (mfield : func) (coef : list Z -> E).
  Notation coords := (ClosureModel.coords mfield).
  Notation n := (List.length coords).
  Hypothesis Hne : coords <> [].
  Notation closure_by_order := (closure_by_order enum E ezero mulZ mfield coef).
  Notation closure := (closure enum E ezero mulZ mfield coef).
  Notation turn := (turn enum E ezero mulZ mfield coef).
  Notation fill := (fill E ezero mulZ coef).
  Notation state := (state E).
  Notation run := (run enum E ezero mulZ erase solve mfield coef).

  Definition alphas (p : Z) : list pod := match all_of_degree enum coords p with Ok l => l | Err _ => [] end.
  Lemma alphas_ok p : all_of_degree enum coords p = Ok (alphas p) /\ NoDup (map p_tuple (alphas p)) /\ forall a, In a (map p_tuple (alphas p)) <-> multi_index n p a.
  Proof.
    unfold alphas. destruct (all_of_degree_spec enum Henum coords p Hne) as (l & -> & D & S). split; [reflexivity|].
    rewrite map_map. cbn [p_tuple]. rewrite map_id. auto.
  Qed.
  Definition level (p : Z) : terms E := map (fun a => (a, mulZ (factorial p) (coef a))) (map p_tuple (alphas p)).
  Definition table (m : nat) : orders E := map (fun p => (p, level p)) (range (Z.of_nat m)).

  Definition ready (order : Z) (s : state) : Prop := c_order E s < order \/ (c_order E s = order /\ c_taylor E s = Some order).
  Lemma taylor_ready order s : ready order s -> taylor E order s = (Some order, mkState E order (Some order) (c_by_order E s)).
  Proof.
    unfold taylor. intros [H|[H T]].
    - destruct (Z.ltb_spec (c_order E s) order); [reflexivity|lia].
    - destruct (Z.ltb_spec (c_order E s) order); [lia|]. rewrite T. destruct s. cbn in *. subst. reflexivity.
  Qed.
  Lemma fill_spec order f l : NoDup (map p_tuple l) -> (forall a z, In a (map p_tuple l) -> In z a -> z < order) -> forall s, ready order s ->
    exists s', fill order l f s = (Ok (map (fun a => (a, mulZ f (coef a))) (map p_tuple l)), s') /\ ready order s' /\ c_by_order E s' = c_by_order E s.
  Proof.
    intros D B. unfold fill.
    assert (G : forall l d s, NoDup (map fst d ++ map p_tuple l) -> (forall a z, In a (map p_tuple l) -> In z a -> z < order) -> ready order s ->
      exists s', fold_left (fun (rs : res (terms E) * state) alpha =>
                 match rs with
                 | (Err e, s) => (Err e, s)
                 | (Ok d, s) => let (t, s') := taylor E order s in
                     match coefficient E ezero coef t (p_tuple alpha) with
                     | Err e => (Err e, s')
                     | Ok c => (Ok (dset ztuple_dec (p_tuple alpha) (mulZ f c) d), s')
                     end
                 end) l (Ok d, s) = (Ok (d ++ map (fun a => (a, mulZ f (coef a))) (map p_tuple l)), s') /\ ready order s' /\ c_by_order E s' = c_by_order E s).
    { clear l D B. induction l as [|a l IH]; intros d s D B R.
      - exists s. cbn [fold_left map]. rewrite app_nil_r. auto.
      - cbn [fold_left]. rewrite (taylor_ready _ _ R). cbn [coefficient].
        assert (Fb : forallb (fun z => z <? order) (p_tuple a) = true).
        { apply forallb_forall. intros z Hz. apply Z.ltb_lt. apply (B (p_tuple a)); [now left|exact Hz]. }
        rewrite Fb. cbn [map] in D. rewrite dset_fresh by (intros I; apply (NoDup_remove_2 _ _ _ D); apply in_or_app; now left).
        destruct (IH (d ++ [(p_tuple a, mulZ f (coef (p_tuple a)))]) (mkState E order (Some order) (c_by_order E s))) as (s' & H & R' & C).
        + rewrite map_app. cbn [map fst]. rewrite <- app_assoc. exact D.
        + intros b z Hb. apply (B b). now right.
        + right. auto.
        + exists s'. split; [etransitivity; [exact H|]; cbn [map]; rewrite <- app_assoc; reflexivity|auto]. }
    intros s R. destruct (G l [] s D B R) as (s' & H & X). exists s'. split; [exact H|exact X].
  Qed.
  Lemma entries_le p a : multi_index n p a -> forall z, In z a -> 0 <= z <= p.
  Proof.
    intros (_ & P & <-). clear - P. induction a as [|x a IH]; intros z [].
    - subst. pose proof (P z (or_introl eq_refl)). pose proof (degree_nonneg a ltac:(intros; apply P; now right)). cbn. lia.
    - pose proof (P x (or_introl eq_refl)). pose proof (IH ltac:(intros; apply P; now right) z H). cbn. lia.
  Qed.
  Lemma table_dset p m : (p <= m)%nat -> dset Z.eq_dec (Z.of_nat p) (level (Z.of_nat p)) (table m) = table (Nat.max m (S p)).
  Proof.
    intros H. destruct (Nat.eq_dec p m) as [->|N].
    - replace (Nat.max m (S m)) with (S m) by lia. unfold table at 2. rewrite range_S, map_app. cbn [map]. rewrite dset_fresh; [reflexivity|].
      unfold table. rewrite map_map. cbn [fst]. rewrite map_id, in_range. lia.
    - replace (Nat.max m (S p)) with m by lia. apply (dset_map Z.eq_dec level). apply in_range. lia.
  Qed.
  Lemma turns order k : Z.of_nat k <= order -> forall s m, ready order s -> c_by_order E s = table m ->
    exists s', fold_left (turn order) (range (Z.of_nat k)) (Ok 1, s) = (Ok (factorial (Z.max 0 (Z.of_nat k - 1))), s') /\ ready order s' /\ c_by_order E s' = table (Nat.max m k).
  Proof.
    induction k as [|k IH]; intros Hk s m R T.
    - exists s. cbn. rewrite Nat.max_0_r. auto.
    - destruct (IH ltac:(lia) s m R T) as (s1 & H1 & R1 & T1). rewrite range_S, fold_left_app, H1. cbn [fold_left turn].
      destruct (alphas_ok (Z.of_nat k)) as (-> & D & S).
      assert (Ff : (if Z.of_nat k =? 0 then factorial (Z.max 0 (Z.of_nat k - 1)) else factorial (Z.max 0 (Z.of_nat k - 1)) * Z.of_nat k) = factorial (Z.of_nat k)).
      { destruct (Z.eqb_spec (Z.of_nat k) 0); [destruct k; [reflexivity|lia]|]. rewrite Z.max_r by lia.
        pose proof (factorial_S (Z.of_nat k - 1) ltac:(lia)) as F. replace (Z.of_nat k - 1 + 1) with (Z.of_nat k) in F by lia. lia. }
      rewrite Ff. destruct (fill_spec order (factorial (Z.of_nat k)) (alphas (Z.of_nat k)) D) with (s := s1) as (s2 & -> & R2 & T2); [|exact R1|].
      { intros a z Ha Hz. apply S in Ha. pose proof (entries_le _ _ Ha z Hz). lia. }
      eexists. split; [repeat f_equal; lia|]. split; [destruct R2 as [R2|[R2 R3]]; [left|right]; auto|]. cbn [c_by_order]. rewrite T2, T1.
      change (map (fun a => (a, mulZ (factorial (Z.of_nat k)) (coef a))) (map p_tuple (alphas (Z.of_nat k)))) with (level (Z.of_nat k)).
      rewrite table_dset by lia. f_equal. lia.
  Qed.

  (** the invariant of the object *)
  Definition stored (m : nat) (s : state) : Prop := c_by_order E s = table m /\ Z.of_nat m <= c_order E s.
  Lemma by_order_spec k s m : stored m s ->
    exists s', closure_by_order k s = (Ok (table (if c_order E s <? k + 1 then Z.to_nat (k + 1) else m)), s')
    /\ stored (if c_order E s <? k + 1 then Z.to_nat (k + 1) else m) s' /\ c_order E s' = Z.max (c_order E s) (k + 1).
  Proof.
    intros [T L]. unfold ClosureModel.closure_by_order. cbv zeta. destruct (Z.ltb_spec (c_order E s) (k + 1)) as [H|H].
    - destruct (turns (k + 1) (Z.to_nat (k + 1)) ltac:(lia) s m (or_introl H) T) as (s1 & H1 & R1 & T1). rewrite Z2Nat.id in H1 by lia. rewrite H1.
      replace (Nat.max m (Z.to_nat (k + 1))) with (Z.to_nat (k + 1)) in T1 by lia. eexists. rewrite T1. split; [reflexivity|].
      split; [split; cbn [c_by_order c_order]; [reflexivity|lia]|cbn [c_order]; lia].
    - exists s. rewrite T. split; [reflexivity|]. split; [split; auto|lia].
  Qed.

  Lemma update_fresh d e : NoDup (map fst d ++ map fst e) -> update E d e = d ++ e.
  Proof.
    unfold update. revert d. induction e as [|[k v] e IH]; intros d H; cbn [fold_left fst snd]; [now rewrite app_nil_r|].
    cbn [map fst] in H. rewrite dset_fresh by (intros I; apply (NoDup_remove_2 _ _ _ H); apply in_or_app; now left).
    rewrite IH; [now rewrite <- app_assoc|]. rewrite map_app. cbn [map fst]. rewrite <- app_assoc. exact H.
  Qed.
  Lemma level_keys p a : In a (map fst (level p)) <-> multi_index n p a.
  Proof. unfold level. rewrite map_map. cbn [fst]. rewrite map_id. apply alphas_ok. Qed.
  Lemma NoDup_app' {A} (l m : list A) : NoDup l -> NoDup m -> (forall x, In x l -> ~ In x m) -> NoDup (l ++ m).
  Proof.
    induction l as [|a l IH]; cbn; intros Hl Hm H; [exact Hm|]. inversion Hl; subst. constructor.
    - rewrite in_app_iff. intros [I|I]; [tauto|]. apply (H a); auto.
    - apply IH; auto.
  Qed.
  Lemma merged_spec m : has_terms mulZ n coef (Z.of_nat m) (fold_left (update E) (map snd (table m)) []).
  Proof.
    assert (G : fold_left (update E) (map snd (table m)) [] = flat_map level (range (Z.of_nat m)) /\ has_terms mulZ n coef (Z.of_nat m) (flat_map level (range (Z.of_nat m)))).
    { induction m as [|m [IH (D & S)]].
      - split; [reflexivity|]. split; [constructor|]. intros a v. cbn. split; [tauto|]. intros (p & H & _). lia.
      - unfold table. rewrite range_S, !map_app, fold_left_app, flat_map_app. cbn [map snd fold_left flat_map]. rewrite app_nil_r.
        fold (table m). rewrite IH.
        assert (N : NoDup (map fst (flat_map level (range (Z.of_nat m))) ++ map fst (level (Z.of_nat m)))).
        { apply NoDup_app'.
          - exact D.
          - unfold level. rewrite map_map. cbn [fst]. rewrite map_id. apply alphas_ok.
          - intros a Ha Hl. apply level_keys in Hl. apply in_map_iff in Ha. destruct Ha as ((a' & v) & Q & Ha). cbn in Q. subst a'.
            apply S in Ha. destruct Ha as (p & Hp & (_ & _ & Q) & _). destruct Hl as (_ & _ & Q'). lia. }
        rewrite update_fresh by exact N. split; [reflexivity|]. split; [now rewrite map_app|].
        intros a v. rewrite in_app_iff, S. split.
        + intros [(p & Hp & X)|H]; [exists p; split; [lia|exact X]|]. exists (Z.of_nat m). split; [lia|].
          unfold level in H. apply in_map_iff in H. destruct H as (b & Q & Hb). injection Q as -> <-. split; [apply alphas_ok; exact Hb|reflexivity].
        + intros (p & Hp & Hm & ->). destruct (Z.eq_dec p (Z.of_nat m)) as [->|Np]; [right|left; exists p; split; [lia|auto]].
          unfold level. apply in_map_iff. exists a. split; [reflexivity|]. apply alphas_ok. exact Hm. }
    rewrite (proj1 G). exact (proj2 G).
  Qed.
  Lemma closure_spec k s m : stored m s ->
    exists d s', closure k s = (Ok d, s') /\ has_terms mulZ n coef (Z.of_nat (if c_order E s <? k + 1 then Z.to_nat (k + 1) else m)) d
    /\ stored (if c_order E s <? k + 1 then Z.to_nat (k + 1) else m) s' /\ c_order E s' = Z.max (c_order E s) (k + 1).
  Proof.
    intros H. destruct (by_order_spec k s m H) as (s' & Q & X). unfold ClosureModel.closure. rewrite Q. eexists _, s'. split; [reflexivity|]. split; [apply merged_spec|exact X].
  Qed.

  Lemma history_gen h : Forall no_metric h -> forall s m, stored m s ->
    exists m', stored m' (run h s) /\ Z.of_nat m' = filled_from (c_order E s) (Z.of_nat m) h /\ c_order E (run h s) = fold_left (fun m x => Z.max m (needs x)) h (c_order E s).
  Proof.
    induction h as [|x h IH]; intros Hh s m H; [exists m; auto|]. inversion Hh; subst. unfold ClosureModel.run. cbn [fold_left filled_from].
    change (fold_left (after enum E ezero mulZ erase solve mfield coef) h (after enum E ezero mulZ erase solve mfield coef s x)) with (run h (after enum E ezero mulZ erase solve mfield coef s x)).
    destruct x as [k|k|k]; [| |match goal with H : no_metric (CMetric _) |- _ => destruct H end]; cbn [after needs].
    - assert (T : c_order E (snd (taylor E k s)) = Z.max (c_order E s) k /\ stored m (snd (taylor E k s))).
      { destruct H as [A B]. unfold taylor. destruct (Z.ltb_spec (c_order E s) k); cbn [snd c_order]; split; try lia; split; auto; cbn [c_order]; lia. }
      destruct T as [O T]. destruct (IH ltac:(assumption) _ _ T) as (m' & A & B & C). rewrite O in B, C. eauto.
    - destruct (closure_spec k s m H) as (d & s' & -> & _ & T & O). cbn [snd]. destruct (IH ltac:(assumption) _ _ T) as (m' & A & B & C). rewrite O in B, C.
      exists m'. split; [exact A|]. split; [|exact C]. rewrite B. f_equal. destruct (Z.ltb_spec (c_order E s) (k + 1)); [|reflexivity].
      destruct H as [_ H]. lia.
  Qed.

  Lemma init_ok : exists s, init E mfield = Ok s /\ stored 0 s /\ c_order E s = 0.
  Proof.
    unfold init. destruct coords eqn:Q; [congruence|]. eexists. split; [reflexivity|]. split; [split; cbn; [reflexivity|lia]|reflexivity].
  Qed.
  Lemma filled_last h k : filled (h ++ [CClosure k]) = if seen h <? k + 1 then k + 1 else filled h.
  Proof.
    unfold filled, seen.
    assert (G : forall h f m, filled_from m f (h ++ [CClosure k]) = if fold_left (fun m x => Z.max m (needs x)) h m <? k + 1 then k + 1 else filled_from m f h); [|apply G].
    clear h. induction h as [|x h IH]; intros f m; cbn [filled_from app fold_left needs]; [reflexivity|]. apply IH.
  Qed.
  Lemma history_closure h k s : init E mfield = Ok s -> Forall no_metric h ->
    exists d, fst (closure k (run h s)) = Ok d /\ has_terms mulZ n coef (filled (h ++ [CClosure k])) d.
  Proof.
    intros Hi Hh. destruct init_ok as (s' & Q & S & O). rewrite Hi in Q. injection Q as <-.
    destruct (history_gen h Hh s 0 S) as (m & A & B & C). destruct (closure_spec k _ m A) as (d & s' & -> & D & _). exists d. split; [reflexivity|].
    rewrite filled_last. rewrite C, O in D. fold (seen h) in D. rewrite O in B. change (Z.of_nat 0) with 0 in B. fold (filled h) in B. rewrite <- B.
    destruct (Z.ltb_spec (seen h) (k + 1)); [|exact D]. rewrite Z2Nat.id in D; [exact D|].
    enough (0 <= seen h) by lia. unfold seen. assert (forall h a, a <= fold_left (fun m x => Z.max m (needs x)) h a) as G; [|apply G].
    clear. induction h as [|x h IH]; intros a; cbn; [lia|]. specialize (IH (Z.max a (needs x))). lia.
  Qed.

  (** ** in_metric_by_order *)
  Notation in_metric := (in_metric_by_order enum E ezero mulZ erase solve mfield coef).
  Notation metric_turn := (metric_turn E erase mfield).
  Notation indices := (metric_indices mfield).
  Definition bad (a : list Z) : Prop := (n <= fst (indices a))%nat \/ (n <= snd (indices a))%nat.
  Lemma bad_dec a : {bad a} + {~ bad a}.
  Proof.
    unfold bad. destruct (le_dec n (fst (indices a))) as [?|N1]; [left; auto|]. destruct (le_dec n (snd (indices a))) as [?|N2]; [left; auto|right; tauto].
  Qed.
  Lemma entry_bad a : bad a -> metric_func mfield (fst (indices a)) (snd (indices a)) = Err IndexError.
  Proof. intros H. apply entry_index_error. exact H. Qed.
  Lemma entry_good a : ~ bad a -> exists g x, metric_func mfield (fst (indices a)) (snd (indices a)) = Ok g /\ aspect_func mfield (fst (indices a)) (snd (indices a)) = Ok x.
  Proof.
    intros H. assert (A : (fst (indices a) < n)%nat /\ (snd (indices a) < n)%nat) by (unfold bad in H; lia). destruct A as [A B].
    destruct (index_code_ok mfield _ _ A B) as (c & Hc). unfold metric_func, aspect_func. rewrite Hc. do 2 eexists. split; reflexivity.
  Qed.
  (** the equation written for alpha *)
  Definition equation (val : list Z -> E) (a : list Z) (q : func * func * E) : Prop :=
    metric_func mfield (fst (indices a)) (snd (indices a)) = Ok (fst (fst q))
    /\ aspect_func mfield (fst (indices a)) (snd (indices a)) = Ok (snd (fst q)) /\ snd q = erase (val a).

  Lemma turn_missing eqs s a : dget Z.eq_dec 2 (c_by_order E s) = None -> metric_turn (Ok eqs, s) a = (Err KeyError, s).
  Proof. intros H. unfold ClosureModel.metric_turn, dgetE. rewrite H. reflexivity. Qed.
  Lemma turn_found eqs s a d v : dget Z.eq_dec 2 (c_by_order E s) = Some d -> dget ztuple_dec (p_tuple a) d = Some v ->
    let s' := mkState E (c_order E s) (c_taylor E s) (dset Z.eq_dec 2 (dset ztuple_dec (p_tuple a) (erase v) d) (c_by_order E s)) in
    (bad (p_tuple a) -> metric_turn (Ok eqs, s) a = (Err IndexError, s'))
    /\ (~ bad (p_tuple a) -> exists q, equation (fun _ => v) (p_tuple a) q /\ metric_turn (Ok eqs, s) a = (Ok (eqs ++ [q]), s')).
  Proof.
    intros H H2 s'. unfold ClosureModel.metric_turn, dgetE. rewrite H. cbn [bind]. rewrite H2. cbn [bind]. fold s'.
    destruct (indices (p_tuple a)) as [i j] eqn:Q. split.
    - intros B. apply entry_bad in B. rewrite Q in B. cbn [fst snd] in B. rewrite B. reflexivity.
    - intros B. destruct (entry_good _ B) as (g & x & G & X). unfold equation. rewrite Q in *. cbn [fst snd] in *. rewrite G. cbn [bind]. rewrite X. cbn [bind].
      exists (g, x, erase v). auto.
  Qed.
  Lemma turns_err e s l : fold_left metric_turn l (Err e, s) = (Err e, s).
  Proof. induction l; cbn; auto. Qed.

  Lemma keys_dset {K V} (eqd : forall a b : K, {a = b} + {a <> b}) k (v w : V) d : dget eqd k d = Some w -> map fst (dset eqd k v d) = map fst d.
  Proof. intros H. apply (dset_same_keys eqd k v d). apply dget_Some_key in H. exact H. Qed.

  Lemma metric_loop (val : list Z -> E) l : NoDup (map p_tuple l) -> forall eqs s d, dget Z.eq_dec 2 (c_by_order E s) = Some d ->
    (forall a, In a (map p_tuple l) -> dget ztuple_dec a d = Some (val a)) ->
    exists s' d', dget Z.eq_dec 2 (c_by_order E s') = Some d' /\ c_order E s' = c_order E s /\ c_taylor E s' = c_taylor E s
    /\ map fst (c_by_order E s') = map fst (c_by_order E s) /\ (forall p, p <> 2 -> dget Z.eq_dec p (c_by_order E s') = dget Z.eq_dec p (c_by_order E s))
    /\ map fst d' = map fst d
    /\ ((exists a, In a (map p_tuple l) /\ bad a) -> fst (fold_left metric_turn l (Ok eqs, s)) = Err IndexError)
    /\ ((forall a, In a (map p_tuple l) -> ~ bad a) -> exists qs, fold_left metric_turn l (Ok eqs, s) = (Ok (eqs ++ qs), s') /\ Forall2 (equation val) (map p_tuple l) qs
        /\ (forall a, In a (map p_tuple l) -> dget ztuple_dec a d' = Some (erase (val a))) /\ (forall a, ~ In a (map p_tuple l) -> dget ztuple_dec a d' = dget ztuple_dec a d)).
  Proof.
    induction l as [|a l IH]; intros D eqs s d H2 HV.
    - exists s, d. repeat (split; [solve [auto]|]). split; [intros (a & [] & _)|]. intros _. exists []. cbn. rewrite app_nil_r. repeat split; auto. tauto.
    - cbn [map] in D, HV. inversion D as [|? ? Hn D']; subst.
      pose proof (HV (p_tuple a) (or_introl eq_refl)) as Hv.
      destruct (turn_found eqs s a d _ H2 Hv) as [Tb Tg]. set (s1 := mkState E _ _ _) in *.
      assert (H2' : dget Z.eq_dec 2 (c_by_order E s1) = Some (dset ztuple_dec (p_tuple a) (erase (val (p_tuple a))) d)) by (cbn [s1 c_by_order]; apply dget_dset_same).
      destruct (bad_dec (p_tuple a)) as [B|B].
      + exists s1, (dset ztuple_dec (p_tuple a) (erase (val (p_tuple a))) d). split; [exact H2'|]. split; [reflexivity|]. split; [reflexivity|].
        split; [cbn [s1 c_by_order]; eapply keys_dset; exact H2|]. split; [intros p Np; cbn [s1 c_by_order]; apply dget_dset_other; auto|].
        split; [eapply keys_dset; exact Hv|]. split.
        * intros _. cbn [fold_left]. rewrite (Tb B), turns_err. reflexivity.
        * intros Q. exfalso. exact (Q (p_tuple a) (or_introl eq_refl) B).
      + destruct (Tg B) as (q & Hq & Ht).
        destruct (IH D' (eqs ++ [q]) s1 _ H2') as (s' & d' & A1 & A2 & A3 & A4 & A5 & A6 & A7 & A8).
        { intros b Hb. rewrite dget_dset_other by (intros <-; tauto). apply HV. now right. }
        exists s', d'. split; [exact A1|]. split; [rewrite A2; reflexivity|]. split; [rewrite A3; reflexivity|].
        split; [rewrite A4; cbn [s1 c_by_order]; eapply keys_dset; exact H2|].
        split; [intros p Np; rewrite A5 by exact Np; cbn [s1 c_by_order]; apply dget_dset_other; auto|].
        split; [rewrite A6; eapply keys_dset; exact Hv|]. cbn [fold_left map]. rewrite Ht. split.
        * intros (b & [<-|Hb] & Bb); [tauto|]. apply A7. eauto.
        * intros Q. destruct A8 as (qs & F & G & K & K'); [intros b Hb; apply Q; now right|]. exists (q :: qs). split; [rewrite F, <- app_assoc; reflexivity|].
          split; [constructor; [exact Hq|exact G]|]. split.
          -- intros b [<-|Hb]; [|apply K; exact Hb]. rewrite K' by exact Hn. apply dget_dset_same.
          -- intros b Hb. rewrite K' by (intros I; apply Hb; now right). apply dget_dset_other. intros <-. apply Hb. now left.
  Qed.

  Lemma table_get m p : dget Z.eq_dec p (table m) = if (0 <=? p) && (p <? Z.of_nat m) then Some (level p) else None.
  Proof.
    induction m as [|m IH]; [cbn; destruct (0 <=? p) eqn:A, (p <? 0) eqn:B; try reflexivity; lia|].
    pose proof (table_dset m m (le_n m)) as X0. rewrite Nat.max_r in X0 by lia. rewrite <- X0, dget_dset, IH. clear X0.
    destruct (Z.eq_dec p (Z.of_nat m)) as [->|N].
    - destruct (Z.leb_spec 0 (Z.of_nat m)), (Z.ltb_spec (Z.of_nat m) (Z.of_nat (S m))); cbn [andb]; reflexivity || lia.
    - destruct (Z.leb_spec 0 p), (Z.ltb_spec p (Z.of_nat m)), (Z.ltb_spec p (Z.of_nat (S m))); cbn [andb]; reflexivity || lia.
  Qed.
  Lemma level_get p a : multi_index n p a -> dget ztuple_dec a (level p) = Some (mulZ (factorial p) (coef a)).
  Proof.
    intros H. apply In_dget.
    - unfold dkeys, level. rewrite map_map. cbn [fst]. rewrite map_id. apply alphas_ok.
    - unfold level. apply in_map_iff. exists a. split; [reflexivity|]. apply alphas_ok. exact H.
  Qed.

  Definition out (k : Z) (s : state) (m : nat) : nat := if c_order E s <? k + 1 then Z.to_nat (k + 1) else m.
  Lemma metric_key_error k s m : stored m s -> (out k s m <= 2)%nat -> fst (in_metric k s) = Err KeyError.
  Proof.
    intros H L. destruct (by_order_spec k s m H) as (s' & Q & [T _] & O). unfold in_metric_by_order. rewrite Q. destruct (alphas_ok 2) as (-> & D & S).
    fold (out k s m) in T.
    destruct (alphas 2) as [|a l] eqn:QA.
    - exfalso. destruct coords as [|c r] eqn:QC; [congruence|]. apply (proj2 (S (2 :: repeat 0 (List.length r)))).
      split; [cbn; now rewrite repeat_length|]. split; [intros z [<-|Hz]; [lia|apply repeat_spec in Hz; lia]|].
      cbn [fold_right]. enough (fold_right Z.add 0 (repeat 0 (List.length r)) = 0) by lia. clear. induction r as [|x r IH]; cbn [repeat List.length fold_right]; [reflexivity|lia].
    - cbn [fold_left]. rewrite turn_missing; [rewrite turns_err; reflexivity|]. rewrite T, table_get. destruct ((0 <=? 2) && (2 <? Z.of_nat (out k s m))) eqn:X; [lia|reflexivity].
  Qed.
  Lemma metric_spec k s m : stored m s -> (2 < out k s m)%nat ->
    ((exists a, multi_index n 2 a /\ bad a) -> fst (in_metric k s) = Err IndexError)
    /\ ((forall a, multi_index n 2 a -> ~ bad a) -> exists qs o,
         Forall2 (equation (fun a => mulZ 2 (coef a))) (map p_tuple (alphas 2)) qs /\ fst (in_metric k s) = Ok o /\ c_by_order E (snd (in_metric k s)) = o
         /\ map fst o = range (Z.of_nat (out k s m))
         /\ forall p, 0 <= p < Z.of_nat (out k s m) -> exists d, dget Z.eq_dec p o = Some d /\ map fst d = map fst (level p)
            /\ forall a, multi_index n p a -> dget ztuple_dec a d = Some (solve qs (if p =? 2 then erase (mulZ 2 (coef a)) else mulZ (factorial p) (coef a)))).
  Proof.
    intros H L. destruct (by_order_spec k s m H) as (s' & Q & [T _] & O). unfold in_metric_by_order. rewrite Q. destruct (alphas_ok 2) as (-> & D & S).
    fold (out k s m) in T. set (r := out k s m) in *.
    assert (T2 : dget Z.eq_dec 2 (c_by_order E s') = Some (level 2)).
    { rewrite T, table_get. destruct ((0 <=? 2) && (2 <? Z.of_nat r)) eqn:X; [reflexivity|lia]. }
    destruct (metric_loop (fun a => mulZ 2 (coef a)) (alphas 2) D [] s' (level 2) T2) as (s2 & d' & A1 & A2 & A3 & A4 & A5 & A6 & A7 & A8).
    { intros a Ha. apply S in Ha. apply level_get in Ha. exact Ha. }
    split.
    - intros (a & Ha & B). assert (X : fst (fold_left metric_turn (alphas 2) (Ok [], s')) = Err IndexError) by (apply A7; exists a; split; [apply S|]; assumption).
      destruct (fold_left _ _ _) as [[qs|e] s3]; cbn [fst] in *; congruence.
    - intros G. destruct A8 as (qs & F & W & K & K'); [intros a Ha; apply G; apply S; exact Ha|]. rewrite F. cbn [app fst snd c_by_order].
      exists qs. eexists. split; [exact W|]. split; [reflexivity|]. split; [reflexivity|].
      assert (GM : forall p (l : orders E), dget Z.eq_dec p (map (fun kd => (fst kd, map (fun kv => (fst kv, solve qs (snd kv))) (snd kd))) l)
        = option_map (map (fun kv => (fst kv, solve qs (snd kv)))) (dget Z.eq_dec p l)).
      { intros p l. induction l as [|[q d] l IHl]; [reflexivity|]. cbn. destruct (Z.eq_dec p q); [reflexivity|exact IHl]. }
      assert (GT : forall a (l : terms E), dget ztuple_dec a (map (fun kv => (fst kv, solve qs (snd kv))) l) = option_map (solve qs) (dget ztuple_dec a l)).
      { intros a l. induction l as [|[q d] l IHl]; [reflexivity|]. cbn. destruct (ztuple_dec a q); [reflexivity|exact IHl]. }
      split.
      + rewrite map_map. cbn [fst]. etransitivity; [exact A4|]. rewrite T. unfold table. rewrite map_map. cbn [fst]. now rewrite map_id.
      + intros p Hp. rewrite GM. destruct (Z.eq_dec p 2) as [->|N].
        * rewrite A1. cbn [option_map]. eexists. split; [reflexivity|]. split; [rewrite map_map; cbn [fst]; exact A6|].
          intros a Ha. rewrite GT, K by (apply S; exact Ha). reflexivity.
        * rewrite A5, T, table_get by exact N. destruct ((0 <=? p) && (p <? Z.of_nat r)) eqn:X; [|lia]. cbn [option_map].
          eexists. split; [reflexivity|]. split; [rewrite map_map; reflexivity|]. intros a Ha. rewrite GT, level_get by exact Ha. cbn [option_map].
          destruct (Z.eqb_spec p 2); [congruence|reflexivity].
  Qed.
End Hist.
