(** Assembly of the lemmas used by TreeProps. *)
From Coq Require Import List Arith ZArith QArith Qcanon Bool String Permutation Lia.
From Verif Require Import PyBase PartialOrderModel PartialOrderSpec PartialOrderProofs
  TreeModel TreeSpec TreeProofs Reynolds ReynoldsInst.
Import ListNotations.
Close Scope Q_scope.
Close Scope Qc_scope.
Open Scope nat_scope.
Open Scope list_scope.
Open Scope string_scope.

Lemma round_trips : forall p, NoDup (p_coords p) -> List.length (p_tuple p) = List.length (p_coords p) ->
  (forall z, In z (p_tuple p) -> (0 <= z)%Z) ->
  pod_new p (tuple_value p) = Ok p /\ pod_new p (couples_value p) = Ok p /\ pod_new p (sequence_value p) = Ok p.
Proof. intros. auto using roundtrip_tuple, roundtrip_couples, roundtrip_sequence. Qed.

Section S.
  Variable enum : list mi -> list mi.
  Variable enumD : tdict -> tdict.
  Variable ss : bool.
  Variable coords : list string.
  Hypothesis enum_perm : forall l, Permutation (enum l) l.
  Hypothesis enumD_perm : forall l, Permutation (enumD l) l.
  Hypothesis Hnd : NoDup coords.
  Hypothesis Hne : coords <> [].
  Notation call st d := (tree_call enum enumD ss coords st d).
  Notation after calls := (tree_calls enum enumD ss coords tree_init calls).

  Lemma rules_entry calls d rules : fst (call (after calls) d) = Ok rules ->
    let degree := match d with None => t_degree (after calls) | Some d => d end in
    (forall kv, In kv rules -> exists j, j <= degree /\ entry_ok ss coords j kv) /\
    (forall a b x y, nz_index (List.length coords) x a -> nz_index (List.length coords) y b -> x + y <= degree ->
       dget ekey_dec (ekey a b) rules <> None).
  Proof.
    intros E degree. rewrite (tree_history enum enum_perm enumD enumD_perm ss coords Hnd Hne) in E.
    injection E as <-. fold degree.
    destruct (state_at_inv enum enum_perm enumD enumD_perm ss coords Hnd Hne degree) as [I D].
    apply (collect_spec ss coords); auto. rewrite D. auto.
  Qed.

  Lemma rules_are_identities calls d rules : fst (call (after calls) d) = Ok rules ->
    forall (A : RAlg) (eps : A) a b v, In ((a, b), v) rules -> expr_value coords eps v = moment coords eps a b.
  Proof.
    intros E A eps a b v Hi. destruct (rules_entry _ _ _ E) as [H _].
    destruct (H _ Hi) as (j & _ & _ & Hs & _). exact (Hs A eps).
  Qed.

  Lemma complete calls degree : exists rules, fst (call (after calls) (Some degree)) = Ok rules
    /\ forall a b x y, nz_index (List.length coords) x a -> nz_index (List.length coords) y b -> x + y <= degree ->
         exists v, In ((a, b), v) rules \/ In ((b, a), v) rules.
  Proof.
    pose proof (tree_history enum enum_perm enumD enumD_perm ss coords Hnd Hne calls (Some degree)) as E. simpl in E.
    eexists. split; [exact E|]. intros a b x y Ha Hb Hd.
    destruct (rules_entry _ _ _ E) as [_ H]. specialize (H a b x y Ha Hb Hd).
    destruct (dget ekey_dec (ekey a b) _) as [v|] eqn:G; [|congruence]. exists v.
    apply dget_in in G. destruct (ekey_cases a b) as [K|K]; rewrite K in G; auto.
  Qed.

  Lemma only_pairs calls degree rules : fst (call (after calls) (Some degree)) = Ok rules ->
    forall a b v, In ((a, b), v) rules ->
    exists x y, nz_index (List.length coords) x a /\ nz_index (List.length coords) y b /\ x + y <= degree.
  Proof.
    intros E a b v Hi. destruct (rules_entry _ _ _ E) as [H _].
    destruct (H _ Hi) as (j & Hj & (a0 & b0 & x & y & K & Ha & Hb & Hs) & _). simpl in K, Hj.
    destruct (ekey_cases a0 b0) as [K'|K']; rewrite K' in K; inversion K; subst.
    - exists x, y. auto.
    - exists y, x. split; [auto|]. split; [auto|]. lia.
  Qed.

  Lemma history_independent calls degree : fst (call (after calls) (Some degree)) = fst (call tree_init (Some degree)).
  Proof.
    rewrite (tree_history enum enum_perm enumD enumD_perm ss coords Hnd Hne calls (Some degree)).
    symmetry. apply (tree_history enum enum_perm enumD enumD_perm ss coords Hnd Hne [] (Some degree)).
  Qed.

  Lemma default_degree calls : fst (call (after calls) None)
    = fst (call tree_init (Some (fold_right Nat.max 0 (map (fun c => match c with None => 0 | Some d => d end) calls)))).
  Proof.
    rewrite (tree_history enum enum_perm enumD enumD_perm ss coords Hnd Hne calls None).
    rewrite (history_degree enum enum_perm enumD enumD_perm ss coords Hnd Hne).
    symmetry. apply (tree_history enum enum_perm enumD enumD_perm ss coords Hnd Hne [] (Some _)).
  Qed.
End S.

Lemma normal_forms enum enumD coords :
  (forall l, Permutation (enum l) l) -> (forall l, Permutation (enumD l) l) -> NoDup coords -> coords <> [] ->
  forall calls d rules,
    fst (tree_call enum enumD true coords (tree_calls enum enumD true coords tree_init calls) d) = Ok rules ->
  forall a b v c ds g h, In ((a, b), v) rules -> In (c, ds, (g, h)) v ->
    (g = zero_index (List.length coords) \/ h = zero_index (List.length coords))
    /\ (forall v', ~ In ((g, h), v') rules)
    /\ (Z.of_nat (List.length ds) + fold_right Z.add 0 g + fold_right Z.add 0 h
        = fold_right Z.add 0 a + fold_right Z.add 0 b)%Z.
Proof.
  intros Hp HpD Hnd Hne calls d rules E a b v c ds g h Hi Ht.
  destruct (rules_entry enum enumD true coords Hp HpD Hnd Hne _ _ _ E) as [H _].
  destruct (H _ Hi) as (j & Hj & (a0 & b0 & x & y & K & Ha & Hb & Hs) & _ & Hnf). simpl in K.
  destruct (Hnf eq_refl _ _ _ Ht) as (g0 & z & Kg & Hg & Hlen).
  assert (Sg : (fold_right Z.add 0 g + fold_right Z.add 0 h = Z.of_nat z)%Z).
  { destruct Hg as [_ [_ Hg]]. destruct (zero_index_spec (List.length coords)) as [_ [_ Hz]].
    destruct (ekey_cases (zero_index (List.length coords)) g0) as [K'|K']; rewrite K' in Kg; inversion Kg; subst; lia. }
  assert (Sa : (fold_right Z.add 0 a + fold_right Z.add 0 b = Z.of_nat j)%Z).
  { destruct Ha as [[_ [_ Ha]] _], Hb as [[_ [_ Hb]] _].
    destruct (ekey_cases a0 b0) as [K'|K']; rewrite K' in K; inversion K; subst; lia. }
  split; [|split].
  - destruct (ekey_cases (zero_index (List.length coords)) g0) as [K'|K']; rewrite K' in Kg; inversion Kg; auto.
  - intros v' Hi'. destruct (H _ Hi') as (j' & _ & (a1 & b1 & x1 & y1 & K1 & Ha1 & Hb1 & _) & _).
    cbn [fst] in K1. rewrite Kg in K1. exact (nf_not_key coords g0 a1 b1 x1 y1 z Ha1 Hb1 Hg K1).
  - lia.
Qed.

Lemma not_without : exists coords d rules,
    fst (tree_call (fun l => l) (fun l => l) false coords tree_init (Some d)) = Ok rules
    /\ exists k v c ds k' v', In (k, v) rules /\ In (c, ds, k') v /\ In (k', v') rules.
Proof.
  exists ["x"], 4. eexists. split; [vm_compute; reflexivity|].
  exists ([2], [2])%Z, [(1%Z, ["x"], ([1], [2])%Z); ((-1)%Z, [], ([1], [3])%Z)].
  exists 1%Z, ["x"], ([1], [2])%Z. eexists. split; [|split]; [simpl; auto 10|simpl; auto|simpl; auto].
Qed.

Lemma c38_example : exists rules,
  fst (tree_call (fun l => l) (fun l => l) true ["x"] tree_init (Some 2)) = Ok rules
  /\ In (([1], [1])%Z, [(1%Z, ["x"], ([0], [1])%Z); ((-1)%Z, [], ([0], [2])%Z)]) rules
  /\ (moment (A := wave (fun _ => 1%Qc)) ["x"] eps_wave [1%Z] [1%Z] : ev -> nat -> Qc) (true, true) 0 = 1%Qc.
Proof.
  eexists. split; [vm_compute; reflexivity|]. split; [simpl; auto|].
  apply Qc_is_canon. vm_compute. reflexivity.
Qed.
