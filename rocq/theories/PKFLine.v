(** One field on a line: the systems of SymbolicPKF do not depend on the iteration orders at all,
    when a computed check succeeds.  With one field and one coordinate most dictionaries and sets have
    one element; the others are the rules of the closures, which are replaced one after the other. *)
From Coq Require Import List Arith ZArith NArith QArith Bool String Permutation Lia.
From Verif Require Import PyBase PyBaseFacts PartialOrderModel PartialOrderSpec TreeModel TreeSpec TreeProofs TreeProps PKFModel PKFSpec PKFClosure PKFProofs PKFShape PKFInst PKFInstMore.
Import ListNotations.
Close Scope Q_scope.
Close Scope N_scope.
Close Scope Z_scope.
Open Scope nat_scope.
Open Scope string_scope.
Open Scope list_scope.

(** *** a fold whose result does not depend on the order *)
Section Fold.
  Context {S X : Type} (Sdec : forall a b : S, {a = b} + {a <> b}) (step : S -> X -> S).
  Notation eqb a b := (if Sdec a b then true else false).
  Fixpoint picks (l : list X) : list (X * list X) :=
    match l with [] => [] | x :: r => (x, r) :: map (fun yr => (fst yr, x :: snd yr)) (picks r) end.
  (** every order of [K] leads from [s] to [f], and the elements of [I] change nothing on the way *)
  Fixpoint confluent (I : list X) (f : S) (n : nat) (K : list X) (s : S) : bool :=
    forallb (fun i => eqb (step s i) s) I &&
    match n with
    | O => match K with [] => eqb s f | _ => false end
    | Datatypes.S n => forallb (fun xr => confluent I f n (snd xr) (step s (fst xr))) (picks K)
    end.
  Lemma picks_in l1 x l2 : In (x, l1 ++ l2) (picks (l1 ++ x :: l2)).
  Proof.
    induction l1 as [|y l1 IH]; [left; reflexivity|]. right. apply in_map_iff. exists (x, l1 ++ l2). split; [reflexivity|exact IH].
  Qed.
  Lemma confluent_fold I f : forall l n K s I', confluent I f n K s = true -> n = List.length K -> (forall i, In i I' -> In i I) ->
    Permutation l (K ++ I') -> fold_left step l s = f.
  Proof.
    induction l as [|x l IH]; intros n K s I' HC Hn HI HP.
    - apply Permutation_nil in HP. apply app_eq_nil in HP. destruct HP as [-> ->]. subst n. cbn in HC.
      apply andb_prop in HC. destruct HC as [_ HC]. destruct (Sdec s f); [exact e|discriminate].
    - cbn [fold_left]. assert (Hx : In x (K ++ I')) by (apply (Permutation_in _ HP); left; reflexivity). apply in_app_iff in Hx. destruct Hx as [Hx|Hx].
      + apply in_split in Hx. destruct Hx as (K1 & K2 & ->). destruct n as [|n]; [rewrite app_length in Hn; cbn in Hn; lia|].
        cbn [confluent] in HC. apply andb_prop in HC. destruct HC as [_ HC]. rewrite forallb_forall in HC.
        apply (IH n (K1 ++ K2) _ I'); [exact (HC _ (picks_in K1 x K2))|rewrite app_length in *; cbn in Hn; lia|exact HI|].
        rewrite <- app_assoc in HP. cbn in HP. apply Permutation_cons_app_inv in HP. rewrite app_assoc in HP. exact HP.
      + assert (E : step s x = s).
        { assert (G : forallb (fun i => eqb (step s i) s) I = true) by (destruct n; cbn [confluent] in HC; apply andb_prop in HC; apply HC).
          rewrite forallb_forall in G. specialize (G x (HI x Hx)). destruct (Sdec (step s x) s); [assumption|discriminate]. }
        rewrite E. apply in_split in Hx. destruct Hx as (I1 & I2 & ->). apply (IH n K s (I1 ++ I2) HC Hn).
        * intros i Hi. apply HI. apply in_app_iff in Hi. apply in_app_iff. cbn. tauto.
        * rewrite app_assoc in HP. apply Permutation_cons_app_inv in HP. rewrite <- app_assoc in HP. exact HP.
  Qed.
  Definition order_free (relevant : X -> bool) (d : list X) (s : S) : bool :=
    let K := filter relevant d in
    confluent (filter (fun x => negb (relevant x)) d) (fold_left step d s) (List.length K) K s.
  Lemma split_perm (relevant : X -> bool) d : Permutation d (filter relevant d ++ filter (fun x => negb (relevant x)) d).
  Proof.
    induction d as [|x d IH]; [constructor|]. cbn [filter]. destruct (relevant x); cbn [negb app]; [constructor; exact IH|].
    apply Permutation_cons_app, IH.
  Qed.
  Lemma order_free_fold relevant d s l : order_free relevant d s = true -> Permutation l d -> fold_left step l s = fold_left step d s.
  Proof.
    intros H HP. eapply confluent_fold; [exact H|reflexivity|intros i Hi; exact Hi|].
    exact (Permutation_trans HP (split_perm relevant d)).
  Qed.
End Fold.

Definition q_dec (a b : Q) : {a = b} + {a <> b}.
Proof. decide equality; [apply Pos.eq_dec|apply Z.eq_dec]. Defined.
Definition poly_dec : forall p q : poly, {p = q} + {p <> q}.
Proof. apply list_eq_dec. decide equality; [apply (list_eq_dec atom_eq_dec)|apply q_dec]. Defined.
Definition texp_dec : forall p q : texp, {p = q} + {p <> q}.
Proof. apply list_eq_dec. decide equality; [apply ekey_dec|]. decide equality; [apply (list_eq_dec string_dec)|apply Z.eq_dec]. Defined.

(** replacement of averages *)
Definition exps_free (d : edict) (p : poly) : bool :=
  order_free poly_dec (fun p kv => sub_exp (fst kv) (snd kv) p)
    (fun kv => if in_dec jets_eq_dec (fst kv) (exp_atoms p) then true else false) d p.
Lemma exps_order enumC d p : (forall l, Permutation (enumC l) l) -> exps_free d p = true -> sub_exps (enumC d) p = sub_exps d p.
Proof. intros HP H. unfold sub_exps. eapply order_free_fold; [exact H|apply HP]. Qed.
(** the rules of the tree *)
Definition dict_free (d : tdict) (e : texp) : bool :=
  order_free texp_dec (fun e kv => subs_one kv e)
    (fun kv => if in_dec ekey_dec (fst kv) (map snd e ++ flat_map (fun kv => map snd (snd kv)) d) then true else false) d e.
Lemma dict_order enumD d e : (forall l, Permutation (enumD l) l) -> dict_free d e = true -> subs_dict enumD d e = subs_dict same d e.
Proof. intros HP H. unfold subs_dict, same. eapply order_free_fold; [exact H|apply HP]. Qed.
Lemma single_order {X} (en : list X -> list X) a : (forall l, Permutation (en l) l) -> en [a] = [a].
Proof. intros H. apply Permutation_length_1_inv, Permutation_sym, H. Qed.
Lemma empty_order {X} (en : list X -> list X) : (forall l, Permutation (en l) l) -> en [] = [].
Proof. intros H. apply Permutation_nil, Permutation_sym, H. Qed.
Lemma short_order {X} (en : list X -> list X) l : (forall l, Permutation (en l) l) -> List.length l <= 1 -> en l = l.
Proof. intros H L. destruct l as [|a [|b l]]; [apply empty_order, H|apply single_order, H|cbn in L; lia]. Qed.
Lemma trend_dict_length s d : trend_dict s = Ok d -> List.length d = List.length s.
Proof.
  intros H. exact (mapM_length _ _ _ H).
Qed.

Section Line.
  Variables (enum : list mi -> list mi) (enumD : tdict -> tdict) (enumC : edict -> edict)
    (enumF : list (fn * poly) -> list (fn * poly)) (enumU : list fn -> list fn).
  Hypothesis HR : rearrangements enum enumD enumC enumF enumU.
  Let Henum := proj1 HR.
  Let HenumD := proj1 (proj2 HR).
  Let HenumC := proj1 (proj2 (proj2 HR)).
  Let HenumF := proj1 (proj2 (proj2 (proj2 HR))).
  Let HenumU := proj2 (proj2 (proj2 (proj2 HR))).
  Notation line := (["x"] : list string).

  Lemma line_degree k : all_of_degree enum line k = all_of_degree same line k.
  Proof.
    destruct (C37_all_of_degree enum line k Henum ltac:(discriminate)) as (l & -> & N & H).
    destruct (C37_all_of_degree same line k) as (l' & -> & N' & H'); [intros; apply Permutation_refl|discriminate|].
    f_equal. f_equal.
    assert (U : forall o o', multi_index 1 k o -> multi_index 1 k o' -> o = o').
    { intros o o' (L & _ & S) (L' & _ & S'). destruct o as [|a [|]]; try discriminate. destruct o' as [|a' [|]]; try discriminate. cbn in S, S'. f_equal. lia. }
    assert (G : forall o, In o l <-> In o l') by (intros o; rewrite H, H'; reflexivity).
    destruct l as [|o [|o1 l]].
    - destruct l' as [|o' l']; [reflexivity|]. destruct (proj2 (G o') (or_introl eq_refl)).
    - assert (Ho : In o l') by (apply G; left; reflexivity). destruct l' as [|o' [|o1 l']]; [destruct Ho|destruct Ho as [<-|[]]; reflexivity|].
      exfalso. apply NoDup_cons_iff in N'. destruct N' as [N' _]. apply N'. left. apply U; apply H'; [right; left|left]; reflexivity.
    - exfalso. apply NoDup_cons_iff in N. destruct N as [N _]. apply N. left. apply U; apply H; [right; left|left]; reflexivity.
  Qed.

  (** *** the tree *)
  Lemma pairs_order degree alpha : pairs_of enum line degree alpha = pairs_of same line degree alpha.
  Proof.
    unfold pairs_of. rewrite line_degree. destruct (all_of_degree same line (Z.of_nat alpha)) as [al|]; [|reflexivity]. cbn [bind].
    replace (mapM (fun alpha0 => betas <- all_of_degree enum line (Z.of_nat (degree - alpha)) ;; Ok (map (pair alpha0) betas)) al)
      with (mapM (fun alpha0 => betas <- all_of_degree same line (Z.of_nat (degree - alpha)) ;; Ok (map (pair alpha0) betas)) al); [reflexivity|].
    rewrite line_degree. reflexivity.
  Qed.
  (** the substitutions met while a level is built *)
  Definition step_free (st : tdict * tdict) (ab : pod * pod) : bool :=
    let '(tr, _) := st in let '(alpha, beta) := ab in
    match as_sequence alpha with
    | [] => true
    | x :: rest =>
        match pod_new alpha (VList (map VCoord rest)), bump line x (p_tuple beta) with
        | Ok sub_alpha, Ok bx => dict_free tr [(1%Z, [x], ekey (p_tuple sub_alpha) (p_tuple beta)); ((-1)%Z, [], ekey (p_tuple sub_alpha) bx)]
        | _, _ => true
        end
    end.
  Lemma step_order st ab : step_free st ab = true -> tree_step enumD true line st ab = tree_step same true line st ab.
  Proof.
    destruct st as [tr lv], ab as [al be]. unfold step_free, tree_step. destruct (as_sequence al) as [|c rest]; [reflexivity|].
    destruct (pod_new al _) as [sa|]; [|reflexivity]. cbn [bind]. destruct (bump line c (p_tuple be)) as [bx|]; [|reflexivity]. cbn [bind].
    intros H. rewrite (dict_order enumD _ _ HenumD H). reflexivity.
  Qed.
  Fixpoint folds_free {A B} (ok : B -> A -> bool) (f : B -> A -> res B) (b : B) (l : list A) : bool :=
    match l with [] => true | x :: r => ok b x && match f b x with Ok b' => folds_free ok f b' r | Err _ => true end end.
  Lemma folds_order {A B} (ok : B -> A -> bool) (f g : B -> A -> res B) : (forall b x, ok b x = true -> f b x = g b x) ->
    forall l b, folds_free ok g b l = true -> foldM f b l = foldM g b l.
  Proof.
    intros Hf. induction l as [|x l IH]; intros b H; [reflexivity|]. cbn [folds_free] in H. apply andb_prop in H. destruct H as [H1 H2].
    cbn [foldM]. rewrite (Hf b x H1). destruct (g b x) as [b'|]; [|reflexivity]. cbn [bind]. apply IH, H2.
  Qed.
  Definition level_free (st : tree) : bool :=
    folds_free (fun s a => match pairs_of same line (S (t_degree st)) a with Ok ps => folds_free step_free (tree_step same true line) s ps | Err _ => true end)
      (fun s a => ps <- pairs_of same line (S (t_degree st)) a ;; foldM (tree_step same true line) s ps) (t_tree st, []) (seq 1 (S (t_degree st) / 2)).
  Lemma level_order st : level_free st = true -> add_level enum enumD true line st = add_level same same true line st.
  Proof.
    intros H. unfold add_level. erewrite folds_order; [reflexivity| |exact H]. intros s a. cbn beta. rewrite pairs_order.
    destruct (pairs_of same line (S (t_degree st)) a) as [ps|]; [|reflexivity]. cbn [bind]. apply folds_order. exact step_order.
  Qed.
  Fixpoint levels_free (n : nat) (st : tree) : bool :=
    match n with
    | O => true
    | S n => level_free st && match add_level same same true line st with (Ok _, st') => levels_free n st' | (Err _, _) => true end
    end.
  Lemma levels_order n : forall st, levels_free n st = true -> add_levels enum enumD true line n st = add_levels same same true line n st.
  Proof.
    induction n as [|n IH]; intros st H; [reflexivity|]. cbn [levels_free] in H. apply andb_prop in H. destruct H as [H1 H2].
    cbn [add_levels]. rewrite (level_order st H1). destruct (add_level same same true line st) as [[u|e] st']; [apply IH, H2|reflexivity].
  Qed.
  Definition tree_free (k : nat) : bool := levels_free (k - t_degree tree_init) tree_init.
  Lemma tree_order k : tree_free k = true -> tree_call enum enumD true line tree_init (Some k) = tree_call same same true line tree_init (Some k).
  Proof. intros H. unfold tree_call. rewrite (levels_order _ _ H). reflexivity. Qed.

  (** *** the closures *)
  Variable q : poly.
  Lemma closure_order : internal_closure enum line [q] = internal_closure same line [q].
  Proof. unfold internal_closure, fields, nfields. cbn [List.length seq mapM]. unfold field_closure. rewrite line_degree. reflexivity. Qed.
  Definition closed_free (cl : edict) (k : nat) : bool :=
    tree_free k && match fst (tree_call same same true line tree_init (Some k)) with
                   | Ok d => forallb (fun kv => exps_free cl (tree_value line 0 (snd kv))) d
                   | Err _ => true
                   end.
  Lemma closed_order cl k : closed_free cl k = true -> closed_tree enum enumD enumC line cl 0 k = closed_tree same same same line cl 0 k.
  Proof.
    intros H. apply andb_prop in H. destruct H as [H1 H2]. unfold closed_tree. rewrite (tree_order k H1).
    destruct (fst (tree_call same same true line tree_init (Some k))) as [d|]; [|reflexivity]. cbn [bind]. f_equal. apply map_ext_in.
    intros kv Hkv. rewrite forallb_forall in H2. rewrite (exps_order enumC _ _ HenumC (H2 kv Hkv)). reflexivity.
  Qed.
  Definition apply_free (p : poly) : bool :=
    match internal_closure same line [q] with
    | Err _ => true
    | Ok cl =>
        match dkeys (check_univariate p) with
        | [] => exps_free cl p
        | [FEps O] =>
            match dgetE fn_eq_dec (FEps 0) (check_univariate p) with
            | Err _ => true
            | Ok ns => closed_free cl (fold_right Nat.max 0 ns) &&
                match closed_tree same same same line cl 0 (fold_right Nat.max 0 ns) with
                | Err _ => true
                | Ok t => exps_free t p && exps_free cl (sub_exps t p)
                end
            end
        | _ => false
        end
    end.
  Lemma apply_order p : apply_free p = true ->
    apply_internal_closure enum enumD enumC enumU line [q] p = apply_internal_closure same same same same line [q] p.
  Proof.
    unfold apply_free, apply_internal_closure. rewrite closure_order. destruct (internal_closure same line [q]) as [cl|]; [|reflexivity]. cbn [bind].
    destruct (dkeys (check_univariate p)) as [|f [|f' l]].
    - intros H. cbn [existsb]. rewrite (empty_order enumU HenumU). change (same (@nil fn)) with (@nil fn). cbn [foldM bind]. rewrite (exps_order enumC _ _ HenumC H). reflexivity.
    - destruct f; try discriminate. destruct i; [|discriminate]. intros H. cbn [existsb field_of Nat.ltb Nat.leb nfields List.length orb].
      rewrite (single_order enumU _ HenumU). change (same [FEps 0]) with [FEps 0]. cbn [foldM field_of Nat.ltb Nat.leb nfields List.length].
      destruct (dgetE fn_eq_dec (FEps 0) (check_univariate p)) as [ns|]; [|reflexivity]. cbn [bind].
      apply andb_prop in H. destruct H as [H1 H2]. rewrite (closed_order cl _ H1).
      destruct (closed_tree same same same line cl 0 (fold_right Nat.max 0 ns)) as [t|]; [|reflexivity]. cbn [bind].
      apply andb_prop in H2. destruct H2 as [H2 H3]. rewrite (exps_order enumC _ _ HenumC H2). change (same t) with t.
      rewrite (exps_order enumC _ _ HenumC H3). reflexivity.
    - intros H. destruct f; try discriminate. destruct i; discriminate.
  Qed.

  (** *** the systems *)
  Lemma error_subs_order : enumF (subs_error [q]) = same (subs_error [q]).
  Proof. apply (single_order enumF), HenumF. Qed.
  Lemma reynolds_order i : reynolds enumF [q] i = reynolds same [q] i.
  Proof. unfold reynolds, subs_reynolds. rewrite (short_order enumF _ HenumF) by (cbn; lia). reflexivity. Qed.
  Lemma second_order : second_order_reynolds enumF [q] = second_order_reynolds same [q].
  Proof. unfold second_order_reynolds. apply map_ext. intros i. rewrite reynolds_order. reflexivity. Qed.
  Lemma first_order : first_order_reynolds enumF [q] = first_order_reynolds same [q].
  Proof. unfold first_order_reynolds. apply map_ext. intros i. rewrite reynolds_order. reflexivity. Qed.
  Definition both_free (cl : edict) (e : pequation) : bool := exps_free cl (fst e) && exps_free cl (snd e).
  Lemma both_order cl e : both_free cl e = true -> on_eq (sub_exps (enumC cl)) e = on_eq (sub_exps (same cl)) e.
  Proof.
    intros H. apply andb_prop in H. destruct H as [H1 H2]. unfold on_eq.
    rewrite (exps_order enumC _ _ HenumC H1), (exps_order enumC _ _ HenumC H2). reflexivity.
  Qed.
  Definition expectation_free : bool :=
    match internal_closure same line [q] with
    | Err _ => true
    | Ok cl => forallb (fun e => both_free cl (on_eq (sub_fns (same (subs_error [q]))) (on_eq expect e))) (second_order_reynolds same [q])
               && forallb (fun e => both_free cl (on_eq expect e)) (first_order_reynolds same [q])
    end.
  Lemma expectation_order : expectation_free = true -> expectation_system enum enumC enumF line [q] = expectation_system same same same line [q].
  Proof.
    unfold expectation_free, expectation_system. rewrite closure_order, second_order, error_subs_order.
    destruct (internal_closure same line [q]) as [cl|]; [|reflexivity]. cbn [bind]. intros H. apply andb_prop in H. destruct H as [H _].
    f_equal. apply map_ext_in. intros e He. rewrite forallb_forall in H. apply both_order, H, He.
  Qed.
  Lemma errors_order : expectation_free = true -> error_system enum enumC enumF line [q] = error_system same same same line [q].
  Proof.
    unfold expectation_free, error_system, tl_expectation_system. rewrite closure_order, first_order.
    destruct (internal_closure same line [q]) as [cl|]; [|reflexivity]. cbn [bind]. intros H. apply andb_prop in H. destruct H as [_ H].
    f_equal. f_equal. f_equal. apply map_ext_in. intros e He. rewrite forallb_forall in H. apply both_order, H, He.
  Qed.
  Definition variance_free : bool :=
    expectation_free && match es <- error_system same same same line [q] ;; trend_dict es with
    | Err _ => true
    | Ok tr => Nat.leb (List.length tr) 1 &&
        apply_free (sub_fns (same (subs_error [q])) (sub_trends (same tr) (expect (pderiv "t" (pmul (pfn (FErr 0)) (pfn (FErr 0)))))))
    end.
  Lemma variance_order : variance_free = true ->
    variance_system enum enumD enumC enumF enumU line [q] = variance_system same same same same same line [q].
  Proof.
    intros H. apply andb_prop in H. destruct H as [H1 H2]. unfold variance_system. rewrite (errors_order H1).
    destruct (error_system same same same line [q]) as [es|]; [|reflexivity]. cbn [bind] in *. destruct (trend_dict es) as [tr|]; [|reflexivity]. cbn [bind] in *.
    apply andb_prop in H2. destruct H2 as [HL H2]. apply Nat.leb_le in HL. unfold fields, nfields. cbn [List.length seq mapM]. unfold variance_equation.
    rewrite (short_order enumF tr HenumF HL), error_subs_order. change (sub_trends tr) with (sub_trends (same tr)). rewrite (apply_order _ H2). reflexivity.
  Qed.
  Definition metric_free : bool :=
    variance_free && match vs <- variance_system same same same same same line [q] ;; trend_dict vs with
    | Err _ => true | Ok tr => Nat.leb (List.length tr) 1 end &&
    match es <- epsilon_system same same same same same line [q] ;; trend_dict es with
    | Err _ => true
    | Ok tr => Nat.leb (List.length tr) 1 && apply_free (sub_trends (same tr) (expect (pderiv "t" (pmul (pjet (FEps 0) ["x"]) (pjet (FEps 0) ["x"])))))
    end.
  Lemma epsilon_order : metric_free = true ->
    epsilon_system enum enumD enumC enumF enumU line [q] = epsilon_system same same same same same line [q].
  Proof.
    intros H. apply andb_prop in H. destruct H as [H _]. apply andb_prop in H. destruct H as [H1 H2]. pose proof H1 as H0.
    apply andb_prop in H0. destruct H0 as [H0 H3]. unfold epsilon_system. rewrite (errors_order H0), (variance_order H1).
    destruct (error_system same same same line [q]) as [es|]; [|reflexivity]. cbn [bind] in *. destruct (trend_dict es) as [tr|]; [|reflexivity]. cbn [bind] in *.
    apply andb_prop in H3. destruct H3 as [H3 _]. apply Nat.leb_le in H3.
    destruct (variance_system same same same same same line [q]) as [vs|]; [|reflexivity]. cbn [bind] in *.
    destruct (trend_dict vs) as [tv|]; [|reflexivity]. cbn [bind] in *. apply Nat.leb_le in H2. f_equal. apply map_ext. intros i. unfold epsilon_equation.
    rewrite (short_order enumF tr HenumF H3), (short_order enumF tv HenumF H2), error_subs_order. reflexivity.
  Qed.
  Lemma metric_order : metric_free = true ->
    metric_system enum enumD enumC enumF enumU line [q] = metric_system same same same same same line [q].
  Proof.
    intros H. unfold metric_system. rewrite (epsilon_order H). apply andb_prop in H. destruct H as [_ H].
    destruct (epsilon_system same same same same same line [q]) as [es|]; [|reflexivity]. cbn [bind] in *. destruct (trend_dict es) as [tr|]; [|reflexivity]. cbn [bind] in *.
    apply andb_prop in H. destruct H as [HL H]. apply Nat.leb_le in HL.
    change (metric_indices line [q]) with [(0, (0, 0))]. cbn [mapM]. unfold metric_equation. cbn [coord nth].
    rewrite (short_order enumF tr HenumF HL). change (sub_trends tr) with (sub_trends (same tr)). rewrite (apply_order _ H). reflexivity.
  Qed.

  (** *** the parametric dynamics *)
  Variable closure : edict.
  Hypothesis Hclosure : List.length closure <= 1.
  Lemma covariance_none : cross_covariance_system enum enumD enumC enumF enumU line [q] = Ok None.
  Proof. reflexivity. Qed.
  Lemma applied_order s : apply_closure enumC closure s = apply_closure same closure s.
  Proof. unfold apply_closure. rewrite (short_order enumC closure HenumC Hclosure). reflexivity. Qed.
  Lemma clean_order s : clean enumF [q] s = clean same [q] s.
  Proof. unfold clean. rewrite (short_order enumF _ HenumF) by (cbn; lia). reflexivity. Qed.
  Lemma in_metric_order : metric_free = true ->
    in_metric enum enumD enumC enumF enumU line [q] closure = in_metric same same same same same line [q] closure.
  Proof.
    intros H. unfold in_metric. rewrite (metric_order H). pose proof (proj1 (andb_prop _ _ (proj1 (andb_prop _ _ H)))) as H1.
    rewrite (variance_order H1). pose proof (proj1 (andb_prop _ _ H1)) as H2. rewrite (expectation_order H2). rewrite covariance_none.
    change (cross_covariance_system same same same same same line [q]) with (Ok (@None (list pequation))).
    destruct (expectation_system same same same line [q]); [|reflexivity]. cbn [bind]. destruct (variance_system same same same same same line [q]); [|reflexivity]. cbn [bind].
    destruct (metric_system same same same same same line [q]); [|reflexivity]. cbn [bind]. rewrite !applied_order, !clean_order. reflexivity.
  Qed.
  Lemma unclosed_order : metric_free = true ->
    unclosed_terms enum enumD enumC enumF enumU line [q] closure = unclosed_terms same same same same same line [q] closure.
  Proof. intros H. unfold unclosed_terms. rewrite (in_metric_order H). reflexivity. Qed.
  Lemma in_tensor_order tensor inv scale factor cov : metric_free = true ->
    in_tensor enum enumD enumC enumF enumU line [q] closure tensor inv scale factor cov
    = in_tensor same same same same same line [q] closure tensor inv scale factor cov.
  Proof.
    intros H. unfold in_tensor. rewrite (metric_order H). pose proof (proj1 (andb_prop _ _ (proj1 (andb_prop _ _ H)))) as H1.
    rewrite (variance_order H1). pose proof (proj1 (andb_prop _ _ H1)) as H2. rewrite (expectation_order H2). rewrite covariance_none.
    change (cross_covariance_system same same same same same line [q]) with (Ok (@None (list pequation))).
    destruct (metric_system same same same same same line [q]) as [m|] eqn:Hm; [|reflexivity]. cbn [bind]. rewrite applied_order.
    assert (Lm : List.length m = 1).
    { unfold metric_system in Hm. destruct (epsilon_system same same same same same line [q]) as [es|]; cbn [bind] in Hm; [|discriminate].
      destruct (trend_dict es); cbn [bind] in Hm; [|discriminate]. change (metric_indices line [q]) with [(0, (0, 0))] in Hm. cbn [mapM] in Hm.
      destruct (metric_equation _ _ _ _ _ _ _ _ _); cbn [bind] in Hm; [|discriminate]. apply Ok_inj in Hm. subst m. reflexivity. }
    destruct (trend_dict (apply_closure same closure m)) as [tr|] eqn:Htr; [|reflexivity]. cbn [bind].
    assert (Lt : List.length tr <= 1).
    { rewrite (trend_dict_length _ _ Htr). unfold apply_closure. destruct closure; [|rewrite map_length]; lia. }
    destruct (expectation_system same same same line [q]); [|reflexivity]. cbn [bind]. destruct (variance_system same same same same same line [q]); [|reflexivity]. cbn [bind].
    destruct (if cov then Ok None else Ok None) as [c|]; [|reflexivity]. cbn [bind]. rewrite clean_order, !applied_order.
    rewrite (short_order enumF _ HenumF) by (cbn; lia).
    replace (map (tensor_equation enumF line [q] tensor inv scale factor tr) (metric_indices line [q]))
      with (map (tensor_equation same line [q] tensor inv scale factor tr) (metric_indices line [q])); [reflexivity|].
    apply map_ext. intros [i [j k]]. unfold tensor_equation. rewrite (short_order enumF tr HenumF Lt). rewrite (short_order enumF (metric_to_tensor _ _ _ _) HenumF) by (cbn; lia).
    reflexivity.
  Qed.
End Line.
