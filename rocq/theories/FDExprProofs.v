From Coq Require Import List Arith ZArith Lia Field Ring Bool FunctionalExtensionality Permutation Sorted.
From Verif Require Import PyBase PyBaseFacts Scalars FieldFacts FornbergModel FDSpec FornbergProofs FDExprModel FDExprSpec.
Import ListNotations.

Section Mixed.
  Variable K : Fld.
  Add Field KFm : (f_th K).
  Open Scope fld_scope.
  Variables (x dx : nat -> K).
  Variable ord : list datom -> list datom.
  Hypothesis ord_perm : forall l, Permutation (ord l) l.

  (** ** the result, term by term *)
  Definition scale (c : K) (l : list (term K)) : list (term K) := map (fun n => (c * fst n, snd n)) l.

  Fixpoint tensor (disp : list Z) (ds : list (nat * nat)) : list (term K) :=
    match ds with
    | [] => [(1, (disp, []))]
    | (i, o) :: rest =>
        flat_map (fun kw => scale (snd kw) (tensor (addz i (fst kw) disp) rest)) (central o (dx i))
    end.

  Definition exp1 (t : term K) : list (term K) :=
    match snd (snd t) with
    | [] => [t]
    | (i, o) :: rest => map (fun kw => (fst t * snd kw, (addz i (fst kw) (fst (snd t)), rest))) (central o (dx i))
    end.

  Lemma foldM_round i o rest (Hd : dx i <> 0) (e0 : list (term K)) :
    (forall t, In t e0 -> snd (snd t) = (i, o) :: rest) ->
    forall done todo,
      (forall a, In a todo -> snd a = (i, o) :: rest) ->
      NoDup (done ++ todo) ->
      forall st, st = flat_map (fun t : term K => if in_dec datom_dec (snd t) done then exp1 t else [t]) e0 ->
      foldM (fun e a => new <- get_subs_derivative x dx a ;; Ok (subs_terms a new e)) st todo
      = Ok (flat_map (fun t : term K => if in_dec datom_dec (snd t) (done ++ todo) then exp1 t else [t]) e0).
  Proof.
    intros He0 done todo. revert done.
    induction todo as [|a todo IH]; intros done Ht ND st Est.
    - rewrite app_nil_r. cbn [foldM]. rewrite Est. reflexivity.
    - cbn [foldM]. unfold get_subs_derivative. rewrite (Ht a (or_introl eq_refl)).
      rewrite (stencil_central K o (x i) (dx i) Hd). cbn [bind].
      rewrite (IH (done ++ [a])).
      + rewrite <- app_assoc. reflexivity.
      + intros b Hb. apply Ht. right; auto.
      + rewrite <- app_assoc. exact ND.
      + rewrite Est. symmetry. clear Est st.
        unfold subs_terms.
        assert (Hin : forall t, In t e0 -> snd (snd t) = (i,o)::rest) by auto.
        clear He0 IH. induction e0 as [|t e0 IHe]; [reflexivity|].
        cbn [flat_map]. rewrite flat_map_app.
        apply (f_equal2 (@app _)); [clear IHe|apply IHe; intros; apply Hin; right; auto].
        pose proof (Hin t (or_introl eq_refl)) as Et.
        destruct (in_dec datom_dec (snd t) done) as [I1|N1];
          destruct (in_dec datom_dec (snd t) (done ++ [a])) as [I2|N2].
        * (* terms of exp1 t have ders = rest: not equal to a *)
          unfold exp1. rewrite Et. symmetry.
          assert (G : forall l : list (Z * K),
             flat_map (fun t0 : term K => if datom_dec (snd t0) a
                then map (fun n : K * datom => (fst t0 * fst n, snd n))
                  (map (fun kw : Z * K => (snd kw, (addz i (fst kw) (fst a), rest))) (central o (dx i)))
                else [t0])
               (map (fun kw : Z * K => (fst t * snd kw, (addz i (fst kw) (fst (snd t)), rest))) l)
             = map (fun kw : Z * K => (fst t * snd kw, (addz i (fst kw) (fst (snd t)), rest))) l).
          { induction l as [|kw l IHl]; [reflexivity|]. cbn [map flat_map].
            match goal with |- (if ?b then _ else _) ++ _ = _ => destruct b as [E|_] end.
            - exfalso. cbn [snd] in E. pose proof (Ht a (or_introl eq_refl)) as Ea. rewrite <- E in Ea. cbn [snd] in Ea.
              apply (f_equal (@length _)) in Ea. simpl in Ea. lia.
            - rewrite IHl. reflexivity. }
          apply G.
        * exfalso. apply N2. apply in_or_app; auto.
        * assert (Ea : snd t = a).
          { apply in_app_or in I2. destruct I2 as [I2|[I2|[]]]; [contradiction|auto]. }
          cbn [flat_map]. rewrite app_nil_r. destruct (datom_dec (snd t) a) as [_|N]; [|contradiction].
          unfold exp1. rewrite Et. rewrite map_map. apply map_ext. intros kw. cbn [fst snd]. rewrite <- Ea. reflexivity.
        * cbn [flat_map]. rewrite app_nil_r. destruct (datom_dec (snd t) a) as [E|_]; [|reflexivity].
          exfalso. apply N2. apply in_or_app. right. left. auto.
  Qed.

  Lemma deriv_atoms_in (e : list (term K)) a : In a (deriv_atoms e) <-> (exists t, In t e /\ snd t = a) /\ snd a <> [].
  Proof.
    unfold deriv_atoms. rewrite nodup_In, filter_In, in_map_iff. split.
    - intros ((t & E & I) & N). split; [exists t; auto|]. intros H. rewrite H in N. discriminate.
    - intros ((t & I & E) & N). split; [exists t; auto|]. destruct (snd a); [congruence|reflexivity].
  Qed.

  Lemma round_spec i o rest e : dx i <> 0 ->
    (forall t, In t e -> snd (snd t) = (i, o) :: rest) ->
    fd_round x dx ord e = Ok (flat_map exp1 e).
  Proof.
    intros Hd He. unfold fd_round.
    pose proof (foldM_round i o rest Hd e He [] (ord (deriv_atoms e))) as H.
    cbn [app] in H.
    assert (E0 : flat_map (fun t : term K => if in_dec datom_dec (snd t) [] then exp1 t else [t]) e = e).
    { clear. induction e as [|t e IHe]; [reflexivity|]. cbn [flat_map].
      match goal with |- context [if ?b then _ else _] => destruct b as [[]|_] end.
      cbn [app]. f_equal. exact IHe. }
    rewrite (fun A B => H A B e (eq_sym E0)).
    - apply f_equal. clear H.
      assert (G : forall t, In t e -> In (snd t) (ord (deriv_atoms e))).
      { intros t Ht. eapply Permutation_in; [symmetry; apply ord_perm|].
        apply deriv_atoms_in. split; [exists t; auto|]. rewrite (He t Ht). congruence. }
      revert G. generalize (ord (deriv_atoms e)) as l. clear He E0. induction e as [|t e IH]; intros l G; [reflexivity|].
      cbn [flat_map]. match goal with |- context [if ?b then _ else _] => destruct b as [_|N] end.
      + rewrite IH; [reflexivity|]. intros; apply G; right; auto.
      + exfalso. apply N, G. left; auto.
    - intros a Ha. eapply Permutation_in in Ha; [|apply ord_perm]. apply deriv_atoms_in in Ha.
      destruct Ha as ((t & It & <-) & _). apply He; auto.
    - eapply Permutation_NoDup; [symmetry; apply ord_perm|]. apply NoDup_nodup.
  Qed.

  Lemma deriv_atoms_nil (e : list (term K)) : (forall t, In t e -> snd (snd t) = []) -> deriv_atoms e = [].
  Proof.
    intros H. destruct (deriv_atoms e) as [|a l] eqn:E; auto.
    assert (I : In a (deriv_atoms e)) by (rewrite E; left; auto).
    apply deriv_atoms_in in I. destruct I as ((t & It & <-) & N). rewrite (H t It) in N. congruence.
  Qed.

  Lemma flat_map_flat_map {A B C} (f : A -> list B) (g : B -> list C) l :
    flat_map g (flat_map f l) = flat_map (fun a => flat_map g (f a)) l.
  Proof. induction l; simpl; auto. rewrite flat_map_app, IHl. reflexivity. Qed.

  Lemma central_nonempty o h : @central K o h <> [].
  Proof. unfold central. simpl. congruence. Qed.

  Lemma scale_scale a b l : scale a (scale b l) = scale (a * b) l.
  Proof. unfold scale. rewrite map_map. apply map_ext. intros [c d]. cbn. f_equal. ring. Qed.
  Lemma scale_app a l l' : scale a (l ++ l') = scale a l ++ scale a l'.
  Proof. unfold scale. apply map_app. Qed.
  Lemma scale_flat_map {A} a (f : A -> list (term K)) l : scale a (flat_map f l) = flat_map (fun y => scale a (f y)) l.
  Proof. induction l; simpl; auto. rewrite scale_app, IHl. reflexivity. Qed.

  Definition grow (t : term K) : list (term K) := scale (fst t) (tensor (fst (snd t)) (snd (snd t))).

  Lemma grow_exp1 t : flat_map grow (exp1 t) = grow t.
  Proof.
    destruct t as [c [s ds]]. unfold exp1. cbn [snd fst]. destruct ds as [|[i o] rest].
    - cbn [flat_map]. apply app_nil_r.
    - unfold grow at 2. cbn [snd fst tensor]. rewrite scale_flat_map.
      induction (central o (dx i)) as [|kw l IH]; [reflexivity|]. cbn [map flat_map].
      rewrite IH. f_equal. unfold grow. cbn [fst snd]. symmetry. apply scale_scale.
  Qed.

  Lemma loop_spec : forall ds fuel e,
    (length ds < fuel)%nat -> (forall i o, In (i, o) ds -> dx i <> 0) -> e <> [] ->
    (forall t, In t e -> snd (snd t) = ds) ->
    fd_loop x dx ord fuel e = Ok (flat_map grow e).
  Proof.
    induction ds as [|[i o] rest IH]; intros fuel e Hf Hd Hne He.
    - destruct fuel; [simpl in Hf; lia|]. cbn [fd_loop].
      rewrite deriv_atoms_nil by auto. apply f_equal.
      assert (G : forall l : list (term K), (forall t, In t l -> snd (snd t) = []) -> flat_map grow l = l).
      { induction l as [|t l IHl]; intros Hl; [reflexivity|].
        cbn [flat_map]. rewrite IHl by (intros; apply Hl; right; auto).
        specialize (Hl t (or_introl eq_refl)). destruct t as [c [s ds]]. cbn [snd] in Hl. subst ds.
        unfold grow. cbn. replace (c * 1) with c by ring. reflexivity. }
      symmetry. apply G. auto.
    - destruct fuel; [simpl in Hf; lia|]. cbn [fd_loop].
      destruct (deriv_atoms e) as [|a l] eqn:E.
      + exfalso. destruct e as [|t e]; [congruence|].
        assert (I : In (snd t) (deriv_atoms (t :: e))).
        { apply deriv_atoms_in. split; [exists t; split; [left|]; auto|]. rewrite (He t (or_introl eq_refl)). congruence. }
        rewrite E in I. destruct I.
      + rewrite (round_spec i o rest e (Hd i o (or_introl eq_refl)) He). cbn [bind].
        rewrite IH.
        * rewrite flat_map_flat_map. apply f_equal. apply flat_map_ext. apply grow_exp1.
        * simpl in Hf. lia.
        * intros i' o' I. apply (Hd i' o'). right; auto.
        * destruct e as [|t e]; [congruence|]. cbn [flat_map]. unfold exp1.
          rewrite (He t (or_introl eq_refl)). unfold central. simpl. congruence.
        * intros t It. apply in_flat_map in It. destruct It as (t0 & I0 & It).
          unfold exp1 in It. rewrite (He t0 I0) in It. apply in_map_iff in It.
          destruct It as (kw & <- & _). reflexivity.
  Qed.

  Lemma flat_map_single_grow c s ds : flat_map grow [(c, (s, ds))] = scale c (tensor s ds).
  Proof. cbn [flat_map]. rewrite app_nil_r. reflexivity. Qed.

  Lemma scale_1 l : scale 1 l = l.
  Proof. unfold scale. rewrite <- (map_id l) at 2. apply map_ext. intros [c d]. cbn. f_equal. ring. Qed.

  Theorem fdd_tensor fuel s ds : (length ds < fuel)%nat -> (forall i o, In (i, o) ds -> dx i <> 0) ->
    finite_difference_derivative x dx ord fuel (s, ds) = Ok (tensor s ds).
  Proof.
    intros Hf Hd. unfold finite_difference_derivative.
    rewrite (loop_spec ds); [|auto|auto|congruence|intros t [<-|[]]; reflexivity].
    rewrite flat_map_single_grow, scale_1. reflexivity.
  Qed.

  (** ** evaluation *)
  Lemma tensor_no_derivative ds : forall s t, In t (tensor s ds) -> snd (snd t) = [].
  Proof.
    induction ds as [|[i o] rest IH]; intros s t H.
    - destruct H as [<-|[]]. reflexivity.
    - cbn [tensor] in H. apply in_flat_map in H. destruct H as (kw & _ & H).
      unfold scale in H. apply in_map_iff in H. destruct H as (t' & <- & H). cbn [snd]. eapply IH; eauto.
  Qed.

  Lemma terms_value_app U l l' : terms_value x dx U (l ++ l') = terms_value x dx U l + terms_value x dx U l'.
  Proof. unfold terms_value. induction l; simpl; [ring|]. rewrite IHl. ring. Qed.
  Lemma terms_value_scale U c l : terms_value x dx U (scale c l) = c * terms_value x dx U l.
  Proof. unfold terms_value, scale. induction l; simpl; [ring|]. rewrite IHl. ring. Qed.

  Lemma nth_addz i k s j : (i < length s)%nat ->
    nth j (addz i k s) 0%Z = (nth j s 0 + if Nat.eq_dec i j then k else 0)%Z.
  Proof.
    unfold addz. intros Hi.
    assert (G : forall v l i j, (i < length l)%nat -> nth j (set_nth i v l) 0%Z = if Nat.eq_dec i j then v else nth j l 0%Z).
    { intros v. induction l as [|a l IH]; intros i' j' H; [simpl in H; lia|].
      destruct i', j'; cbn [set_nth nth]; auto.
      rewrite IH by (simpl in H; lia). destruct (Nat.eq_dec i' j'), (Nat.eq_dec (S i') (S j')); try lia; auto. }
    rewrite G by auto. destruct (Nat.eq_dec i j); [subst; lia|lia].
  Qed.
  Lemma addz_length i k s : length (addz i k s) = length s.
  Proof.
    unfold addz. generalize (nth i s 0 + k)%Z as v. revert i.
    induction s as [|a s IH]; intros [|i] v; simpl; auto.
  Qed.

  Lemma displaced_addz i k s : (i < length s)%nat ->
    displaced x dx (addz i k s) = at_coord (displaced x dx s) i (displaced x dx s i + fz k * dx i).
  Proof.
    intros Hi. apply functional_extensionality. intros j. unfold displaced, at_coord.
    rewrite nth_addz by auto. rewrite fz_add. destruct (Nat.eq_dec i j) as [->|N].
    - ring.
    - change (fz 0) with (0 : K). ring.
  Qed.

  Lemma tensor_value U : forall ds s, (forall i o, In (i, o) ds -> (i < length s)%nat) ->
    terms_value x dx U (tensor s ds) = partials dx ds U (displaced x dx s).
  Proof.
    induction ds as [|[i o] rest IH]; intros s Hs.
    - cbn. ring.
    - cbn [tensor partials fold_right fst snd]. unfold partial.
      induction (central o (dx i)) as [|kw l IHl]; [reflexivity|].
      cbn [flat_map fold_right]. rewrite terms_value_app, terms_value_scale, IHl. clear IHl.
      rewrite IH.
      + rewrite displaced_addz by (apply (Hs i o); left; auto). reflexivity.
      + intros i' o' I. rewrite addz_length. apply (Hs i' o'). right; auto.
  Qed.

  Lemma partial_ext i o U V : (forall p, U p = V p) -> forall p, partial dx i o U p = partial dx i o V p.
  Proof.
    intros E p. unfold partial. induction (central o (dx i)); simpl; auto. rewrite IHl, E. reflexivity.
  Qed.

  Lemma partial_lin i o (l : list (Z * K)) j (U : (nat -> K) -> K) p :
    partial dx i o (fun q => fold_right (fun kw acc => snd kw * U (at_coord q j (q j + fz (fst kw) * dx j)) + acc) 0 l) p
    = fold_right (fun kw acc => snd kw * partial dx i o (fun q => U (at_coord q j (q j + fz (fst kw) * dx j))) p + acc) 0 l.
  Proof.
    induction l as [|kw l IH]; simpl.
    - unfold partial. induction (central o (dx i)); simpl; [reflexivity|]. rewrite IHl. ring.
    - rewrite <- IH. unfold partial. induction (central o (dx i)) as [|a c IHc]; simpl; [ring|].
      rewrite IHc. ring.
  Qed.

  Lemma at_coord_comm p i j a b : 
    at_coord (at_coord p i (p i + a * dx i)) j (at_coord p i (p i + a * dx i) j + b * dx j)
    = at_coord (at_coord p j (p j + b * dx j)) i (at_coord p j (p j + b * dx j) i + a * dx i).
  Proof.
    apply functional_extensionality. intros k. unfold at_coord.
    destruct (Nat.eq_dec j k), (Nat.eq_dec i j), (Nat.eq_dec j i), (Nat.eq_dec i k); subst; try congruence; try ring.
  Qed.

  Lemma partial_comm i o j o' U p :
    partial dx i o (partial dx j o' U) p = partial dx j o' (partial dx i o U) p.
  Proof.
    unfold partial at 2. rewrite partial_lin. unfold partial at 2.
    induction (central o' (dx j)) as [|kw l IH]; simpl; [reflexivity|]. rewrite IH. f_equal. f_equal.
    clear IH. unfold partial.
    induction (central o (dx i)) as [|kw' l' IH]; simpl; [reflexivity|]. rewrite IH. f_equal. f_equal.
    f_equal. apply at_coord_comm.
  Qed.

  Lemma partials_perm U l l' : Permutation l l' -> forall p, partials dx l U p = partials dx l' U p.
  Proof.
    induction 1 as [|[i o] l l' H IH|[i o] [i' o'] l|l1 l2 l3 H1 IH1 H2 IH2]; intros p.
    - reflexivity.
    - cbn [partials fold_right fst snd]. apply partial_ext. apply IH.
    - cbn [partials fold_right fst snd]. apply partial_comm.
    - rewrite IH1. apply IH2.
  Qed.
End Mixed.
