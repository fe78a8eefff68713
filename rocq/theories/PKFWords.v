(** Words of coordinates: sorted insertion, and the derivatives used by the substitution tree. *)
From Coq Require Import List Arith ZArith NArith Bool String Ascii Permutation Lia.
From Verif Require Import PyBase PyBaseFacts PartialOrderModel PartialOrderSpec PartialOrderProofs TreeModel TreeSpec TreeProofs TreeMore TreeProps
  PKFModel PKFClosure.
Import ListNotations.
Close Scope Q_scope.
Close Scope Z_scope.
Open Scope nat_scope.
Open Scope string_scope.
Open Scope list_scope.
Open Scope py_scope.

(** *** the order of strings *)
Lemma ascii_compare a b : Ascii.compare a b = N.compare (N_of_ascii a) (N_of_ascii b).
Proof. reflexivity. Qed.
Lemma ascii_eq a b : N_of_ascii a = N_of_ascii b -> a = b.
Proof. intros H. rewrite <- (ascii_N_embedding a), <- (ascii_N_embedding b), H. reflexivity. Qed.
Lemma string_lt_trans a : forall b c, string_lt a b = true -> string_lt b c = true -> string_lt a c = true.
Proof.
  unfold string_lt. induction a as [|x a IH]; intros [|y b] [|z c]; cbn [String.compare]; try discriminate; try reflexivity.
  rewrite !ascii_compare. destruct (N.compare_spec (N_of_ascii x) (N_of_ascii y)) as [H1|H1|H1]; try discriminate;
  destruct (N.compare_spec (N_of_ascii y) (N_of_ascii z)) as [H2|H2|H2]; try discriminate;
  destruct (N.compare_spec (N_of_ascii x) (N_of_ascii z)) as [H3|H3|H3]; try lia; try reflexivity; intros A B; try discriminate.
  exact (IH b c A B).
Qed.
Lemma string_lt_irrefl a : string_lt a a = false.
Proof.
  unfold string_lt. induction a as [|x a IH]; [reflexivity|]. cbn [String.compare]. rewrite ascii_compare, N.compare_refl. exact IH.
Qed.
Lemma string_lt_total a b : string_lt a b = false -> string_lt b a = false -> a = b.
Proof.
  unfold string_lt. rewrite (String.compare_antisym b a). destruct (String.compare a b) eqn:H; cbn; try discriminate.
  intros _ _. apply String.compare_eq_iff, H.
Qed.
Lemma string_lt_asym a b : string_lt a b = true -> string_lt b a = false.
Proof. intros H. destruct (string_lt b a) eqn:H'; [|reflexivity]. pose proof (string_lt_trans _ _ _ H H') as K. rewrite string_lt_irrefl in K. discriminate. Qed.
Definition sle (a b : string) : Prop := string_lt b a = false.
Lemma sle_trans a b c : sle a b -> sle b c -> sle a c.
Proof.
  unfold sle. intros H1 H2. destruct (string_lt c a) eqn:H; [|reflexivity].
  destruct (string_lt a b) eqn:H3.
  - rewrite (string_lt_trans _ _ _ H H3) in H2. discriminate.
  - rewrite (string_lt_total _ _ H3 H1) in H. congruence.
Qed.
Lemma sle_antisym a b : sle a b -> sle b a -> a = b.
Proof. unfold sle. intros H1 H2. apply string_lt_total; assumption. Qed.

(** *** sorted words *)
Inductive sorted : list string -> Prop :=
| so_nil : sorted []
| so_cons c w : (forall d, In d w -> sle c d) -> sorted w -> sorted (c :: w).
Lemma winsert_perm c w : Permutation (winsert c w) (c :: w).
Proof.
  induction w as [|d w IH]; cbn [winsert]; [reflexivity|]. destruct (string_lt d c); [|reflexivity].
  transitivity (d :: c :: w); [constructor; exact IH|constructor].
Qed.
Lemma winsert_in c w d : In d (winsert c w) <-> d = c \/ In d w.
Proof.
  split; intros H.
  - apply (Permutation_in _ (winsert_perm c w)) in H. destruct H as [<-|H]; auto.
  - apply (Permutation_in _ (Permutation_sym (winsert_perm c w))). destruct H as [->|H]; [left; reflexivity|right; exact H].
Qed.
Lemma winsert_sorted c w : sorted w -> sorted (winsert c w).
Proof.
  induction 1 as [|d w Hd Hw IH]; cbn [winsert]; [constructor; [intros d []|constructor]|].
  destruct (string_lt d c) eqn:H.
  - constructor; [|exact IH]. intros e He. apply winsert_in in He. destruct He as [->|He]; [apply string_lt_asym, H|apply Hd, He].
  - constructor; [|constructor; assumption]. intros e [<-|He]; [exact H|apply (sle_trans _ d); [exact H|apply Hd, He]].
Qed.
Lemma sorted_perm w : sorted w -> forall w', sorted w' -> Permutation w w' -> w = w'.
Proof.
  induction 1 as [|c w Hc Hw IH]; intros w' Hw' HP.
  - apply Permutation_nil in HP. symmetry. exact HP.
  - destruct Hw' as [|d w' Hd Hw']; [apply Permutation_sym, Permutation_nil in HP; discriminate|].
    assert (c = d).
    { assert (In c (d :: w')) as [->|H1] by (apply (Permutation_in _ HP); left; reflexivity); [reflexivity|].
      assert (In d (c :: w)) as [->|H2] by (apply (Permutation_in _ (Permutation_sym HP)); left; reflexivity); [reflexivity|].
      apply sle_antisym; auto. }
    subst d. f_equal. apply IH; [exact Hw'|]. apply Permutation_cons_inv in HP. exact HP.
Qed.
Lemma winsert_comm c d w : sorted w -> winsert c (winsert d w) = winsert d (winsert c w).
Proof.
  intros H. apply sorted_perm; [apply winsert_sorted, winsert_sorted, H..|].
  rewrite !winsert_perm. constructor.
Qed.
Lemma wremove_none c w : ~ In c w -> wremove c w = None.
Proof.
  induction w as [|d w IH]; intros H; [reflexivity|]. cbn [wremove]. destruct (string_dec c d) as [->|]; [destruct H; left; reflexivity|].
  rewrite IH; [reflexivity|]. intros K. apply H. right. exact K.
Qed.
Lemma wremove_winsert c w : ~ In c w -> wremove c (winsert c w) = Some w.
Proof.
  induction w as [|d w IH]; intros H; cbn [winsert wremove].
  - destruct (string_dec c c); [reflexivity|congruence].
  - destruct (string_lt d c); cbn [wremove].
    + destruct (string_dec c d) as [->|]; [destruct H; left; reflexivity|]. rewrite IH; [reflexivity|]. intros K. apply H. right. exact K.
    + destruct (string_dec c c); [reflexivity|congruence].
Qed.

(** spatial words *)
Definition spatial (coords : list string) (w : list string) : Prop := sorted w /\ incl w coords.
Lemma spatial_nil coords : spatial coords [].
Proof. split; [constructor|intros c []]. Qed.
Lemma spatial_insert coords c w : In c coords -> spatial coords w -> spatial coords (winsert c w).
Proof. intros Hc [H1 H2]. split; [apply winsert_sorted, H1|]. intros d Hd. apply winsert_in in Hd. destruct Hd as [->|Hd]; auto. Qed.
Lemma spatial_one coords c : In c coords -> spatial coords [c].
Proof. intros H. exact (spatial_insert coords c [] H (spatial_nil coords)). Qed.
Lemma spatial_group coords w : spatial coords w -> spatial coords (first_group w).
Proof.
  intros [H1 H2]. assert (G : forall d, In d (first_group w) -> In d w).
  { clear H1 H2. induction w as [|c w IH]; [auto|]. cbn [first_group]. intros d [<-|H]; [left; reflexivity|].
    right. destruct w as [|e w]; [destruct H|]. destruct (string_dec c e); [apply IH, H|destruct H]. }
  split; [|intros d Hd; apply H2, G, Hd]. induction H1 as [|c w Hc Hw IH]; [constructor|]. cbn [first_group].
  destruct w as [|e w]; [constructor; [intros d []|constructor]|].
  destruct (string_dec c e) as [->|]; [|constructor; [intros d []|constructor]].
  constructor.
  - intros d Hd. apply Hc. clear - Hd. revert d Hd. generalize (e :: w) as v. induction v as [|c v IH]; [auto|]. cbn [first_group]. intros d [<-|H]; [left; reflexivity|].
    right. destruct v as [|x v]; [destruct H|]. destruct (string_dec c x); [apply IH, H|destruct H].
  - apply IH; [intros d Hd; apply H2; right; exact Hd|]. clear. generalize (e :: w) as v. induction v as [|c v IH]; [auto|]. cbn [first_group]. intros d [<-|H]; [left; reflexivity|].
    right. destruct v as [|x v]; [destruct H|]. destruct (string_dec c x); [apply IH, H|destruct H].
Qed.
Lemma spatial_word_of coords o : spatial coords (word_of coords o).
Proof.
  unfold word_of. set (l := List.concat _). assert (H : forall c, In c l -> In c coords).
  { intros c Hc. unfold l in Hc. apply in_concat in Hc. destruct Hc as (r & Hr & Hc). apply in_map_iff in Hr. destruct Hr as ([d z] & <- & Hd).
    apply repeat_spec in Hc. cbn [fst] in Hc. subst. exact (in_combine_l _ _ _ _ Hd). }
  clearbody l. induction l as [|c l IH]; cbn [fold_right]; [apply spatial_nil|].
  apply spatial_insert; [apply H; left; reflexivity|apply IH; intros; apply H; right; assumption].
Qed.
(** a spatial word is the word of its multi-index *)
Definition orders (coords : list string) (w : list string) : mi := map (fun c => Z.of_nat (count_occ string_dec w c)) coords.
Lemma word_orders coords w : NoDup coords -> spatial coords w -> word_of coords (orders coords w) = w.
Proof.
  intros Hnd [Hs Hi]. apply sorted_perm; [apply (spatial_word_of coords (orders coords w))|exact Hs|].
  assert (G : forall l, Permutation (fold_right winsert [] l) l).
  { induction l as [|c l IH]; cbn [fold_right]; [constructor|]. rewrite winsert_perm. constructor. exact IH. }
  unfold word_of. rewrite G. unfold orders.
  assert (K : forall cs, NoDup cs -> Permutation (List.concat (map (fun ca => repeat (fst ca) (Z.to_nat (snd ca))) (combine cs (map (fun c => Z.of_nat (count_occ string_dec w c)) cs))))
     (filter (fun c => if in_dec string_dec c cs then true else false) w)).
  { clear. intros cs Hnd. apply (Permutation_count_occ string_dec). induction Hnd as [|c cs Hc Hcs IH]; intros x.
    - cbn [map combine List.concat]. assert (F : filter (fun c => if in_dec string_dec c [] then true else false) w = []).
      { induction w as [|y w IHw]; [reflexivity|]. cbn [filter]. destruct (in_dec string_dec y []) as [[]|]; exact IHw. }
      rewrite F. reflexivity.
    - cbn [map combine List.concat fst snd]. rewrite count_occ_app, IH, Nat2Z.id.
      assert (F : forall k y, count_occ string_dec (repeat y k) x = if string_dec y x then k else 0).
      { induction k as [|k IHk]; intros y; cbn [repeat count_occ]; [destruct (string_dec y x); reflexivity|]. rewrite IHk. destruct (string_dec y x); reflexivity. }
      rewrite F.
      assert (C : forall ds, count_occ string_dec (filter (fun c => if in_dec string_dec c ds then true else false) w) x
                 = if in_dec string_dec x ds then count_occ string_dec w x else 0).
      { intros ds. clear. induction w as [|y w IHw]; cbn [filter count_occ]; [destruct (in_dec string_dec x ds); reflexivity|].
        destruct (in_dec string_dec y ds) as [Hy|Hy]; cbn [count_occ].
        - rewrite IHw. destruct (string_dec y x) as [->|]; [|reflexivity]. destruct (in_dec string_dec x ds); [reflexivity|contradiction].
        - rewrite IHw. destruct (string_dec y x) as [->|]; [|reflexivity]. destruct (in_dec string_dec x ds); [contradiction|reflexivity]. }
      rewrite !C. destruct (string_dec c x) as [->|Hne].
      + destruct (in_dec string_dec x cs); [contradiction|]. destruct (in_dec string_dec x (x :: cs)) as [_|H]; [lia|destruct H; left; reflexivity].
      + destruct (in_dec string_dec x cs) as [H|H]; destruct (in_dec string_dec x (c :: cs)) as [H'|H']; auto.
        * destruct H'. right; exact H.
        * destruct H' as [H'|H']; [congruence|contradiction]. }
  rewrite K by exact Hnd.
  assert (F : filter (fun c => if in_dec string_dec c coords then true else false) w = w).
  { clear - Hi. induction w as [|y w IH]; [reflexivity|]. cbn [filter]. destruct (in_dec string_dec y coords) as [H|H]; [|destruct H; apply Hi; left; reflexivity].
    rewrite IH; [reflexivity|]. intros c Hc. apply Hi. right. exact Hc. }
  rewrite F. reflexivity.
Qed.
Lemma orders_index coords w : NoDup coords -> spatial coords w -> multi_index (List.length coords) (Z.of_nat (List.length w)) (orders coords w).
Proof.
  intros Hnd [_ Hi]. split; [apply map_length|]. split.
  - intros z Hz. apply in_map_iff in Hz. destruct Hz as (c & <- & _). lia.
  - unfold orders. revert Hi. induction w as [|y w IH]; intros Hi.
    + clear. induction coords as [|c cs IH]; [reflexivity|]. cbn [map fold_right count_occ]. cbn [map count_occ] in IH. cbn [List.length] in *. lia.
    + assert (Hy : In y coords) by (apply Hi; left; reflexivity).
      assert (Hw : incl w coords) by (intros c Hc; apply Hi; right; exact Hc). specialize (IH Hw). cbn [List.length].
      assert (G : forall cs, NoDup cs -> fold_right Z.add 0%Z (map (fun c => Z.of_nat (count_occ string_dec (y :: w) c)) cs)
                 = (fold_right Z.add 0%Z (map (fun c => Z.of_nat (count_occ string_dec w c)) cs) + (if in_dec string_dec y cs then 1 else 0))%Z).
      { clear. induction 1 as [|c cs Hc Hcs IHc]; [reflexivity|]. cbn [map fold_right]. rewrite IHc. cbn [count_occ].
        destruct (string_dec y c) as [->|Hne].
        - destruct (in_dec string_dec c cs); [contradiction|]. destruct (in_dec string_dec c (c :: cs)) as [_|H]; [lia|destruct H; left; reflexivity].
        - destruct (in_dec string_dec y cs) as [H|H]; destruct (in_dec string_dec y (c :: cs)) as [H'|H']; try lia.
          + destruct H'. right; exact H. + destruct H' as [H'|H']; [congruence|contradiction]. }
      rewrite G by exact Hnd. destruct (in_dec string_dec y coords); [|contradiction]. lia.
Qed.

(** *** the derivatives written by the substitution tree are spatial *)
Lemma foldM_inv {S X} (P : S -> Prop) (f : S -> X -> res S) l : (forall s x s', In x l -> P s -> f s x = Ok s' -> P s') ->
  forall s s', P s -> foldM f s l = Ok s' -> P s'.
Proof.
  induction l as [|x l IH]; intros Hf s s' Hs H; cbn [foldM] in H; [apply Ok_inj in H; subst; exact Hs|].
  destruct (f s x) as [s1|] eqn:H1; cbn [bind] in H; [|discriminate].
  apply (IH (fun s x s' Hx => Hf s x s' (or_intror Hx)) s1 s'); [|exact H]. exact (Hf s x s1 (or_introl eq_refl) Hs H1).
Qed.
Section Derivatives.
  Variables (enum : list mi -> list mi) (enumD : tdict -> tdict) (ss : bool) (coords : list string).
  Hypothesis enum_perm : forall l, Permutation (enum l) l.
  Hypothesis enumD_perm : forall l, Permutation (enumD l) l.
  Hypothesis Hne : coords <> [].
  Definition eok (e : texp) : Prop := forall c ds k, In (c, ds, k) e -> incl ds coords.
  Definition dok (t : tdict) : Prop := forall k e, In (k, e) t -> eok e.
  Lemma subs_one_ok k v e : eok v -> eok e -> eok (subs_one (k, v) e).
  Proof.
    intros Hv He c ds k' Hin. unfold subs_one in Hin. apply in_flat_map in Hin. destruct Hin as ([[c1 d1] k1] & H1 & H2).
    destruct (ekey_dec k1 (fst (k, v))).
    - apply in_map_iff in H2. destruct H2 as ([[c2 d2] k2] & H & H2). cbn [snd] in H2. injection H as <- <- <-.
      intros x Hx. apply in_app_iff in Hx. destruct Hx as [Hx|Hx]; [exact (He _ _ _ H1 x Hx)|exact (Hv _ _ _ H2 x Hx)].
    - destruct H2 as [H|[]]. injection H as <- <- <-. exact (He _ _ _ H1).
  Qed.
  Lemma subs_dict_ok t e : dok t -> eok e -> eok (subs_dict enumD t e).
  Proof.
    intros Ht. unfold subs_dict. assert (G : forall l e, (forall k v, In (k, v) l -> eok v) -> eok e -> eok (fold_left (fun e kv => subs_one kv e) l e)).
    { induction l as [|[k v] l IH]; intros e0 Hl He; cbn [fold_left]; [exact He|].
      apply IH; [intros k' v' H; apply (Hl k' v'); right; exact H|]. apply subs_one_ok; [apply (Hl k v); left; reflexivity|exact He]. }
    apply G. intros k v Hin. apply (Ht k v), (Permutation_in _ (enumD_perm t)), Hin.
  Qed.
  Lemma dok_dset k v t : eok v -> dok t -> dok (dset ekey_dec k v t).
  Proof. intros Hv Ht k' v' Hin. apply TreeProofs.in_dset in Hin. destruct Hin as [[-> ->]|Hin]; [exact Hv|exact (Ht k' v' Hin)]. Qed.
  Lemma tree_step_ok' st a b st' : dok (fst st) /\ dok (snd st) -> tree_step enumD ss coords st (mkPod coords a, b) = Ok st' ->
    dok (fst st') /\ dok (snd st').
  Proof.
    destruct st as [tr level]. cbn [fst snd]. intros [H1 H2] H. unfold tree_step in H.
    pose proof (as_sequence_in (mkPod coords a)) as Hin. destruct (as_sequence (mkPod coords a)) as [|x rest]; [discriminate|].
    destruct (pod_new _ _) as [sa|]; cbn [bind] in H; [|discriminate]. destruct (bump coords x (p_tuple b)) as [bx|]; cbn [bind] in H; [|discriminate].
    apply Ok_inj in H. subst st'. cbn [fst snd].
    set (v := if ss then _ else _). assert (Hv : eok v).
    { assert (H0 : eok [(1%Z, [x], ekey (p_tuple sa) (p_tuple b)); ((-1)%Z, [], ekey (p_tuple sa) bx)]).
      { intros c ds k [H|[H|[]]]; injection H as <- <- <-; intros y; [intros [<-|[]]; apply Hin; left; reflexivity|intros []]. }
      unfold v. destruct ss; [apply subs_dict_ok; assumption|exact H0]. }
    split; apply dok_dset; assumption.
  Qed.
  Lemma add_level_dok st r st' : dok (t_tree st) -> (forall j l, In (j, l) (t_levels st) -> dok l) -> add_level enum enumD ss coords st = (r, st') ->
    dok (t_tree st') /\ (forall j l, In (j, l) (t_levels st') -> dok l).
  Proof.
    intros H1 H2 H. unfold add_level in H.
    destruct (foldM (fun (st0 : tdict * tdict) (ad : nat) => ps <- pairs_of enum coords (S (t_degree st)) ad ;; foldM (tree_step enumD ss coords) st0 ps) (t_tree st, []) (seq 1 (S (t_degree st) / 2))) as [[tr level]|] eqn:HF; cbn [bind] in H; injection H as <- <-; cbn [t_tree t_levels]; [|auto].
    assert (G : dok (fst (tr, level)) /\ dok (snd (tr, level))).
    { refine (foldM_inv (fun st => dok (fst st) /\ dok (snd st)) _ _ _ _ _ _ HF); [|split; [exact H1|intros k e []]].
      intros s ad s' _ Hs Hstep. destruct (pairs_of enum coords (S (t_degree st)) ad) as [ps|] eqn:Hps; cbn [bind] in Hstep; [|discriminate].
      refine (foldM_inv (fun st => dok (fst st) /\ dok (snd st)) _ _ _ _ _ Hs Hstep).
      intros s1 [a b] s2 Hin Hs1 Hst. destruct (pairs_ok enum enum_perm coords Hne (S (t_degree st)) ad) as (l & Hl & _).
      rewrite Hl in Hps. apply Ok_inj in Hps. subst ps. apply in_map_iff in Hin. destruct Hin as ([a0 b0] & Hab & _). injection Hab as <- <-.
      exact (tree_step_ok' _ _ _ _ Hs1 Hst). }
    destruct G as [G1 G2]. split; [exact G1|]. intros j l Hin.
    assert (D : forall (d : dict nat tdict) k v, In (j, l) (dset Nat.eq_dec k v d) -> (j = k /\ l = v) \/ In (j, l) d).
    { clear. induction d as [|[k0 v0] d IH]; intros k v H; cbn [dset] in H; [destruct H as [H|[]]; injection H as <- <-; auto|].
      destruct (Nat.eq_dec k k0) as [->|]; destruct H as [H|H].
      - injection H as <- <-. auto. - right. right. exact H. - right. left. exact H.
      - destruct (IH _ _ H); auto. right. right. assumption. }
    apply D in Hin. destruct Hin as [[_ ->]|Hin]; [exact G2|exact (H2 j l Hin)].
  Qed.
  Lemma add_levels_dok m : forall st r st', dok (t_tree st) -> (forall j l, In (j, l) (t_levels st) -> dok l) -> add_levels enum enumD ss coords m st = (r, st') ->
    dok (t_tree st') /\ (forall j l, In (j, l) (t_levels st') -> dok l).
  Proof.
    induction m as [|m IH]; intros st r st' H1 H2 H; cbn [add_levels] in H; [injection H as <- <-; auto|].
    destruct (add_level enum enumD ss coords st) as [r1 st1] eqn:E. destruct (add_level_dok _ _ _ H1 H2 E) as [G1 G2].
    destruct r1; [exact (IH st1 r st' G1 G2 H)|injection H as <- <-; auto].
  Qed.
  Lemma tree_derivatives d rules : fst (tree_call enum enumD ss coords tree_init (Some d)) = Ok rules -> dok rules.
  Proof.
    unfold tree_call. destruct (add_levels _ _ _ _ _ tree_init) as [r st] eqn:E.
    destruct (add_levels_dok _ tree_init _ _ (fun k e (H : In (k, e) []) => match H with end) (fun j l (H : In (j, l) []) => match H with end) E) as [_ G].
    destruct r; cbn [fst]; [|discriminate]. intros H. apply Ok_inj in H. subst rules.
    assert (U : forall (e t : tdict), dok t -> dok e -> dok (update t e)).
    { intros e. unfold update. induction e as [|[k v] e IH]; intros t Ht He; cbn [fold_left]; [exact Ht|].
      apply IH; [apply dok_dset; [apply (He k v); left; reflexivity|exact Ht]|intros k' v' H; apply (He k' v'); right; exact H]. }
    assert (F : forall ls t, (forall j l, In (j, l) ls -> dok l) -> dok t ->
      dok (fold_left (fun t ld => if (d <? fst ld)%nat then t else update t (snd ld)) ls t)).
    { induction ls as [|[j l] ls IH]; intros t Hl Ht; cbn [fold_left]; [exact Ht|]. apply IH; [intros j' l' H; apply (Hl j' l'); right; exact H|].
      cbn [fst snd]. destruct (d <? j)%nat; [exact Ht|]. apply U; [exact Ht|apply (Hl j l); left; reflexivity]. }
    apply F; [exact G|intros k e []].
  Qed.
End Derivatives.
