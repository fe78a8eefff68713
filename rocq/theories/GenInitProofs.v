From Coq Require Import List Arith Bool String.
From Verif Require Import PyBase PyBaseFacts SchemesModel GenInitModel GenInitSpec.
Import ListNotations.
Open Scope string_scope.
Open Scope list_scope.
Open Scope py_scope.

Section P.
  Variable V : Type.
  Variable is_nan : V -> bool.
  Notation kwargs := (kwargs V). Notation attr := (attr V).

  Lemma nan_block names : forall (d : dict string attr) n,
    dget string_dec n (fold_left (fun a n => dset string_dec n NaN a) names d) =
    if lmem string_dec n names then Some NaN else dget string_dec n d.
  Proof.
    induction names as [|m names IH]; intros d n; [reflexivity|]. cbn [fold_left]. rewrite IH, dget_dset.
    destruct (lmem string_dec n names) eqn:L.
    - apply lmem_true in L. assert (X : lmem string_dec n (m :: names) = true) by (apply lmem_true; right; exact L). rewrite X. reflexivity.
    - apply lmem_false in L. destruct (string_dec n m) as [->|D].
      + assert (X : lmem string_dec m (m :: names) = true) by (apply lmem_true; left; reflexivity). rewrite X. reflexivity.
      + assert (X : lmem string_dec n (m :: names) = false) by (apply lmem_false; intros [E|H]; congruence). rewrite X. reflexivity.
  Qed.
  Lemma kw_block names (kw : kwargs) : NoDup (map fst kw) -> forall (d : dict string attr) n,
    dget string_dec n (fold_left (fun a kv => if lmem string_dec (fst kv) names then dset string_dec (fst kv) (Given (snd kv)) a else a) kw d) =
    match dget string_dec n kw with
    | Some a => if lmem string_dec n names then Some (Given a) else dget string_dec n d
    | None => dget string_dec n d
    end.
  Proof.
    induction kw as [|[k a] kw IH]; intros ND d n; [reflexivity|]. inversion ND as [|? ? H ND']; subst. cbn [fold_left fst snd]. rewrite IH by assumption.
    cbn [dget]. destruct (string_dec n k) as [->|D].
    - assert (X : dget string_dec k kw = None).
      { destruct (dget string_dec k kw) eqn:E; [|reflexivity]. exfalso. apply H. apply in_map_iff. exists (k, a0). split; [reflexivity|].
        exact (dget_Some_In string_dec k a0 kw E). }
      rewrite X. destruct (lmem string_dec k names); [|reflexivity]. rewrite dget_dset. destruct (string_dec k k); [reflexivity|contradiction].
    - assert (Y : dget string_dec n (if lmem string_dec k names then dset string_dec k (Given a) d else d) = dget string_dec n d).
      { destruct (lmem string_dec k names); [|reflexivity]. rewrite dget_dset. destruct (string_dec n k); [contradiction|reflexivity]. }
      rewrite Y. reflexivity.
  Qed.
  Definition value_in (kw : kwargs) (n : string) : attr := match dget string_dec n kw with Some a => Given a | None => NaN end.
  Lemma block names kw (d : dict string attr) n : NoDup (map fst kw) ->
    dget string_dec n (set_block V names kw d) = if lmem string_dec n names then Some (value_in kw n) else dget string_dec n d.
  Proof.
    intros ND. unfold set_block. rewrite kw_block, nan_block by assumption. unfold value_in.
    destruct (dget string_dec n kw); destruct (lmem string_dec n names); reflexivity.
  Qed.
  Lemma value_in_spec kw n : NoDup (map fst kw) -> constant_value kw n (value_in kw n).
  Proof.
    intros ND. unfold value_in, constant_value, given. destruct (dget string_dec n kw) as [a|] eqn:E.
    - left. exists a. split; [exact (dget_Some_In string_dec n a kw E)|reflexivity].
    - right. split; [|reflexivity]. intros a H. apply dget_None in E. apply E. unfold dkeys. apply in_map_iff. exists (n, a). auto.
  Qed.
  Lemma init_all coords cf cs dim kw i : NoDup (map fst kw) -> init_Manifold V is_nan coords cf cs dim kw = Ok i ->
    i_scheme V i = Rk4 /\
    (forall n, dget string_dec n (i_attrs V i) =
       if lmem string_dec n (cf ++ cs) then Some (value_in kw n) else if string_dec n "base_space" then Some BaseSpace else None) /\
    i_warned V i = filter (fun n => nan_attr V is_nan (Some (value_in kw n))) (cf ++ cs).
  Proof.
    intros ND. unfold init_Manifold, scheme_Manifold, base_init. cbn [dget]. change (model_init "rk4") with (@Ok scheme_id Rk4). cbn [bind].
    destruct (negb (Nat.eqb dim (List.length coords))); [discriminate|]. intros E. inversion E; subst i. cbn [i_scheme i_attrs i_warned]. clear E.
    assert (L : forall n, lmem string_dec n (cf ++ cs) = lmem string_dec n cs || lmem string_dec n cf).
    { intros n. destruct (lmem string_dec n (cf ++ cs)) eqn:X.
      - apply lmem_true, in_app_or in X. symmetry. apply orb_true_iff. rewrite !lmem_true. tauto.
      - apply lmem_false in X. symmetry. apply orb_false_iff. rewrite !lmem_false. split; intros H; apply X, in_or_app; tauto. }
    split; [reflexivity|]. split.
    - intros n. rewrite !block by assumption. rewrite L. destruct (lmem string_dec n cs); [reflexivity|]. cbn [orb].
      destruct (lmem string_dec n cf); [reflexivity|]. cbn [dget]. reflexivity.
    - unfold warn_block. rewrite filter_app. f_equal; apply filter_ext_in; intros n Hn; rewrite !block by assumption;
        apply (lmem_true string_dec) in Hn; rewrite Hn; reflexivity.
  Qed.
End P.
