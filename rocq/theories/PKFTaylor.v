(** The truncated expansions of [_compute_reynolds_system] are the Taylor coefficients of the
    dynamics at mean + h * error: the polynomials in h modulo h^3 form an algebra of random
    fields again, in which the model's substitution is evaluated. *)
From Coq Require Import List Arith Ring QArith Qcanon Bool String Permutation Lia.
From Verif Require Import PyBase Reynolds PKFModel PKFSpec PKFAlg PKFAtoms.
Import ListNotations.
Close Scope Q_scope.
Close Scope Qc_scope.
Open Scope nat_scope.
Open Scope string_scope.
Open Scope list_scope.

Section Tri.
  Variable A : RAlg.
  Add Ring A_ring : (c_th A).
  Open Scope ra_scope.

  Definition t_map (f : A -> A) (a : tri (A := A)) : tri (A := A) := let '(a0, a1, a2) := a in (f a0, f a1, f a2).
  Definition t_opp : tri (A := A) -> tri := t_map copp.
  Definition t_sub (a b : tri (A := A)) : tri := t_add a (t_opp b).

  Lemma tri_eq (a0 a1 a2 b0 b1 b2 : A) : a0 = b0 -> a1 = b1 -> a2 = b2 -> (a0, a1, a2) = (b0, b1, b2).
  Proof. congruence. Qed.
  Lemma t_th : ring_theory (t_const (0 : A)) (t_const 1) t_add t_mul t_sub t_opp eq.
  Proof.
    constructor; intros; repeat match goal with x : tri |- _ => destruct x as [[? ?] ?] end;
      unfold t_sub, t_opp, t_map, t_const, t_add, t_mul; try reflexivity; apply tri_eq; ring.
  Qed.

  Definition triA : RAlg.
  Proof.
    refine (mkRAlg (tri (A := A)) (t_const 0) (t_const 1) t_add t_mul t_sub t_opp t_th
              (fun q => t_const (cq q)) _ _ _ (fun c => t_map (dd c)) _ _ _ _ (t_map EE) _ _ _ _).
    - rewrite (cq_1 A). reflexivity.
    - intros. unfold t_const, t_add. rewrite cq_add. apply tri_eq; ring.
    - intros. unfold t_const, t_mul. rewrite cq_mul. apply tri_eq; ring.
    - intros c [[? ?] ?] [[? ?] ?]. cbn. rewrite !dd_add. reflexivity.
    - intros c [[? ?] ?] [[? ?] ?]. cbn. repeat rewrite ?dd_add, ?dd_mul. apply tri_eq; ring.
    - intros. cbn. rewrite dd_cq, dd_0. reflexivity.
    - intros c d [[? ?] ?]. cbn. rewrite (dd_comm A c d c0), (dd_comm A c d c1), (dd_comm A c d c2). reflexivity.
    - intros [[? ?] ?] [[? ?] ?]. cbn. rewrite !EE_add. reflexivity.
    - intros [[? ?] ?] [[? ?] ?]. cbn. repeat rewrite ?EE_add, ?EE_pull. reflexivity.
    - intros. cbn. rewrite EE_cq, EE_0. reflexivity.
    - intros c [[? ?] ?]. cbn. rewrite !EE_dd. reflexivity.
  Defined.

  Definition hh : triA := (0, 1, 0).
  Definition inj (a : A) : triA := t_const a.

  Lemma inj_mul a b : inj (a * b) = inj a * inj b.
  Proof. unfold inj, t_const. cbn. apply tri_eq; ring. Qed.
  Lemma inj_dds w a : inj (dds w a) = dds w (inj a).
  Proof.
    induction w as [|c w IH]; [reflexivity|]. cbn [dds]. rewrite <- IH. unfold inj, t_const. cbn.
    rewrite dd_0. reflexivity.
  Qed.
  Lemma inj_EE a : inj (EE a) = EE (inj a).
  Proof. unfold inj, t_const. cbn. rewrite EE_0. reflexivity. Qed.
  Lemma tri_dds w (a b c : A) : dds (A := triA) w (a, b, c) = (dds w a, dds w b, dds w c).
  Proof. induction w as [|x w IH]; [reflexivity|]. cbn [dds]. rewrite IH. reflexivity. Qed.

  (** *** an environment over the expansions: everything is constant but the formal parameter *)
  Variable E : env A.
  Hypothesis HE : algebraic E.
  Hypothesis H1 : e_small E = 1.

  Definition E3 : env triA :=
    {| e_fn := fun f => inj (e_fn E f); e_sig := fun i => inj (e_sig E i); e_isig := fun i => inj (e_isig E i);
       e_cst := fun k => inj (e_cst E k); e_small := hh |}.
  Lemma E3_algebraic : algebraic E3.
  Proof.
    constructor; intros; cbn [E3 e_fn e_sig e_isig e_cst e_small].
    - rewrite <- inj_mul, (al_isig _ HE). reflexivity.
    - rewrite (al_var _ HE). apply inj_mul.
    - change (dd c (inj (e_fn E (FExt k deps)))) with (dds (A := triA) [c] (inj (e_fn E (FExt k deps)))).
      rewrite <- inj_dds. cbn [dds]. rewrite (al_ext _ HE) by assumption. reflexivity.
    - change (dd c (inj (e_cst E k))) with (dds (A := triA) [c] (inj (e_cst E k))).
      rewrite <- inj_dds. cbn [dds]. rewrite (al_cst _ HE). reflexivity.
    - cbn. rewrite dd_0, dd_1. reflexivity.
  Qed.

  Lemma small_degree_cons a m :
    small_degree (a :: m) = if atom_eq_dec a ASmall then S (small_degree m) else small_degree m.
  Proof. unfold small_degree. cbn [filter]. destruct (atom_eq_dec a ASmall); reflexivity. Qed.
  Add Ring T_ring : (c_th triA).

  (** the value of a product is h^d times its value at h = 1 *)
  Fixpoint hpow (d : nat) : triA := match d with O => (1 : triA) | S d => hh * hpow d end.
  Lemma jprod_inj l : jprod E3 l = inj (jprod E l).
  Proof.
    induction l as [|j l IH]; [reflexivity|]. cbn [jprod fold_right].
    change (fold_right (fun j p => jv E3 j * p) 1 l) with (jprod E3 l).
    change (fold_right (fun j p => jv E j * p) 1 l) with (jprod E l).
    rewrite IH, inj_mul. unfold jv. rewrite inj_dds. reflexivity.
  Qed.
  Lemma mv_inj m : mv E3 m = hpow (small_degree m) * inj (mv E m).
  Proof.
    induction m as [|a m IH].
    - cbn. apply tri_eq; ring.
    - rewrite !mv_cons, IH, small_degree_cons.
      destruct (atom_eq_dec a ASmall) as [->|Hne].
      + cbn [hpow av E3 e_small]. rewrite H1.
        replace (1 * mv E m) with (mv E m) by ring. ring.
      + assert (Ha : av E3 a = inj (av E a)).
        { destruct a; cbn [av E3 e_fn e_cst e_sig e_isig]; try reflexivity.
          - symmetry. apply inj_dds.
          - rewrite jprod_inj, <- inj_EE, <- inj_dds. reflexivity.
          - congruence. }
        rewrite Ha, inj_mul. ring.
  Qed.
  Definition coef (k : nat) (a : triA) : A :=
    match k with O => fst (fst a) | S O => snd (fst a) | _ => snd a end.
  Lemma hpow_coef d a k : (k < 3)%nat -> coef k (hpow d * inj a) = if Nat.eqb d k then a else 0.
  Proof.
    intros Hk. destruct d as [|[|[|d]]].
    - destruct k as [|[|[|]]]; [| | |lia]; cbn; ring.
    - destruct k as [|[|[|]]]; [| | |lia]; cbn; ring.
    - destruct k as [|[|[|]]]; [| | |lia]; cbn; ring.
    - assert (Z : hpow (S (S (S d))) = t_const 0).
      { cbn. destruct (hpow d) as [[? ?] ?]. unfold t_const. apply tri_eq; ring. }
      rewrite Z. destruct k as [|[|[|]]]; [| | |lia]; cbn; ring.
  Qed.
  Lemma coef_add k a b : coef k (a + b) = coef k a + coef k b.
  Proof. destruct a as [[? ?] ?], b as [[? ?] ?]. destruct k as [|[|]]; reflexivity. Qed.
  Lemma coef_pv p k : (k < 3)%nat ->
    coef k (pv E3 p) = pv E (filter (fun t => Nat.eqb (small_degree (snd t)) k) p).
  Proof.
    intros Hk. induction p as [|t p IH].
    - destruct k as [|[|[|]]]; [| | |lia]; reflexivity.
    - rewrite pv_cons, coef_add, IH, mv_inj. cbn [filter].
      change (cq (Q2Qc (fst t))) with (inj (cq (Q2Qc (fst t)))) at 1.
      replace (inj (cq (Q2Qc (fst t))) * (hpow (small_degree (snd t)) * inj (mv E (snd t))))
        with (hpow (small_degree (snd t)) * inj (cq (Q2Qc (fst t)) * mv E (snd t))).
      2:{ rewrite inj_mul. ring. }
      rewrite hpow_coef by exact Hk. destruct (Nat.eqb (small_degree (snd t)) k); [rewrite pv_cons|]; [reflexivity|ring].
  Qed.

  Lemma taylor2_value p : pv E (taylor2 p) = coef 0 (pv E3 p) + coef 1 (pv E3 p) + coef 2 (pv E3 p).
  Proof.
    rewrite !coef_pv by lia. unfold taylor2.
    set (f := fun t : Q * mono => Nat.ltb (small_degree (snd t)) 3).
    set (f0 := fun t : Q * mono => Nat.eqb (small_degree (snd t)) 0).
    set (f1 := fun t : Q * mono => Nat.eqb (small_degree (snd t)) 1).
    set (f2 := fun t : Q * mono => Nat.eqb (small_degree (snd t)) 2).
    induction p as [|t p IH]; [cbn; ring|]. cbn [filter].
    assert (f t = orb (f0 t) (orb (f1 t) (f2 t)) /\ andb (f0 t) (f1 t) = false /\ andb (f0 t) (f2 t) = false
            /\ andb (f1 t) (f2 t) = false) as (Hf & H01 & H02 & H12).
    { unfold f, f0, f1, f2. destruct (small_degree (snd t)) as [|[|[|d]]]; repeat split. }
    rewrite Hf. destruct (f0 t), (f1 t), (f2 t); try discriminate; cbn [orb]; rewrite ?pv_cons, IH; ring.
  Qed.
  Lemma square_zero_value p : pv E (square_zero (taylor2 p)) = coef 0 (pv E3 p) + coef 1 (pv E3 p).
  Proof.
    rewrite !coef_pv by lia. unfold taylor2, square_zero.
    set (f := fun t : Q * mono => Nat.ltb (small_degree (snd t)) 3).
    set (f0 := fun t : Q * mono => Nat.eqb (small_degree (snd t)) 0).
    set (f1 := fun t : Q * mono => Nat.eqb (small_degree (snd t)) 1).
    set (f2 := fun t : Q * mono => negb (Nat.eqb (small_degree (snd t)) 2)).
    induction p as [|t p IH]; [cbn; ring|]. cbn [filter].
    assert (andb (f t) (f2 t) = orb (f0 t) (f1 t) /\ andb (f0 t) (f1 t) = false) as (Hf & H01).
    { unfold f, f0, f1, f2. destruct (small_degree (snd t)) as [|[|[|d]]]; repeat split. }
    destruct (f t); cbn [filter].
    - cbn [andb] in Hf. rewrite Hf. destruct (f0 t), (f1 t); try discriminate; cbn [orb]; rewrite ?pv_cons, IH; ring.
    - cbn [andb] in Hf. destruct (f0 t), (f1 t); try discriminate; rewrite IH; ring.
  Qed.
  Lemma small_one_value p : pv E (small_one p) = pv E p.
  Proof.
    unfold small_one. rewrite psum_sound. induction p as [|t p IH]; [reflexivity|]. cbn [map fold_right].
    rewrite IH, pv_cons, pins_sound. cbn [fst snd]. rewrite pv_nil.
    assert (F : forall m, mv E (filter (fun a => if atom_eq_dec a ASmall then false else true) m) = mv E m).
    { clear - H1 . induction m as [|a m IHm]; [reflexivity|]. cbn [filter].
      destruct (atom_eq_dec a ASmall) as [->|]; rewrite ?mv_cons, IHm; [|reflexivity]. cbn [av]. rewrite H1. ring. }
    rewrite F. ring.
  Qed.

End Tri.

(** *** the Reynolds substitution *)
Definition no_average (a : atom) : Prop := match a with AExp _ _ => False | _ => True end.
Lemma no_average_deriv c a : no_average a -> pall no_average (datom c a).
Proof.
  destruct a; cbn [datom]; intros H; try (apply pall_nil); try destruct H.
  - apply pjet_all; [exact I|intros; exact I].
  - apply pmulm_all; [intros b [<-|[]]; exact I|apply pjet_all; [exact I|intros; exact I]].
  - apply pmulm_all; [intros b [<-|[<-|[<-|[]]]]; exact I|apply pjet_all; [exact I|intros; exact I]].
Qed.
Lemma sub_fn_no_average f v p : pall no_average v -> pall no_average p -> pall no_average (sub_fn f v p).
Proof.
  intros Hv Hp. unfold sub_fn, psubst. apply (replace_all no_average); [exact Hp|].
  intros a Ha. destruct a; cbn [asubst]; try (apply patom_all; exact I); [|destruct Ha].
  destruct (fn_eq_dec f0 f); [apply pderivs_all; [apply no_average_deriv|exact Hv]|].
  apply pjet_all; [exact I|intros; exact I].
Qed.

Section Shift.
  Context {A : RAlg} (E : env A).
  Add Ring A_ring3 : (c_th A).
  Open Scope ra_scope.
  Hypothesis HE : algebraic E.

  (** prognostic functions in [S] are mean + small * error *)
  Definition shift (S : list nat) : env A :=
    {| e_fn := fun f => match f with
                        | FField i => if in_dec Nat.eq_dec i S then e_fn E (FMean i) + e_small E * e_fn E (FErr i)
                                      else e_fn E f
                        | _ => e_fn E f
                        end;
       e_sig := e_sig E; e_isig := e_isig E; e_cst := e_cst E; e_small := e_small E |}.
  Lemma shift_algebraic S : algebraic (shift S).
  Proof. destruct HE. constructor; intros; cbn; auto. Qed.

  Definition reynolds_value (i : nat) : poly := padd (pfn (FMean i)) (pmulm 1 [ASmall] (pfn (FErr i))).
  Lemma reynolds_value_sound S i :
    pv (shift S) (reynolds_value i) = e_fn E (FMean i) + e_small E * e_fn E (FErr i).
  Proof.
    unfold reynolds_value. rewrite padd_sound, pmulm_sound, !pfn_sound by apply shift_algebraic.
    rewrite mv_cons, mv_nil, qq_1. cbn [av shift e_small e_fn]. ring.
  Qed.
  Lemma reynolds_value_no_average i : pall no_average (reynolds_value i).
  Proof.
    apply padd_all; [apply pjet_all; [exact I|intros; exact I]|].
    apply pmulm_all; [intros b [<-|[]]; exact I|apply pjet_all; [exact I|intros; exact I]].
  Qed.

  (** replacing one more function *)
  Lemma sub_one S i p : pall no_average p ->
    pv (shift S) (sub_fn (FField i) (reynolds_value i) p) = pv (shift (i :: S)) p.
  Proof.
    intros Hp. unfold sub_fn, psubst.
    rewrite (replace_sound _ (shift_algebraic S) _ (av (shift (i :: S)))); [reflexivity|].
    intros c m a Hm Ha. specialize (Hp c m Hm a Ha).
    destruct a; cbn [asubst]; try (rewrite patom_sound by apply shift_algebraic; reflexivity); [|destruct Hp].
    destruct (fn_eq_dec f (FField i)) as [->|Hne].
    - rewrite pderivs_sound, reynolds_value_sound by apply shift_algebraic. cbn [av shift e_fn].
      destruct (in_dec Nat.eq_dec i (i :: S)) as [|H]; [reflexivity|]. exfalso. apply H. left; reflexivity.
    - rewrite pjet_sound by apply shift_algebraic. cbn [av shift e_fn]. destruct f; try reflexivity.
      destruct (in_dec Nat.eq_dec i0 S) as [Hi|Hi], (in_dec Nat.eq_dec i0 (i :: S)) as [Hj|Hj]; try reflexivity.
      + exfalso. apply Hj. right; exact Hi.
      + exfalso. destruct Hj as [->|Hj]; congruence.
  Qed.
  Lemma sub_all l : forall S p, pall no_average p ->
    pv (shift S) (sub_fns (map (fun i => (FField i, reynolds_value i)) l) p) = pv (shift (l ++ S)) p.
  Proof.
    induction l as [|i l IH]; intros S p Hp; [reflexivity|]. cbn [map]. unfold sub_fns. cbn [fold_left fst snd].
    change (pv (shift S) (sub_fns (map (fun i => (FField i, reynolds_value i)) l) (sub_fn (FField i) (reynolds_value i) p))
            = pv (shift ((i :: l) ++ S)) p).
    rewrite IH by (apply sub_fn_no_average; [apply reynolds_value_no_average|exact Hp]).
    rewrite sub_one by exact Hp.
    reflexivity.
  Qed.
End Shift.

(** values only depend on the values of the functions that occur *)
Lemma pv_ext {A : RAlg} (E E' : env A) p : (forall c m a, In (c, m) p -> In a m -> av E a = av E' a) ->
  pv E p = pv E' p.
Proof.
  intros H. induction p as [|t p IH]; [reflexivity|]. rewrite !pv_cons. f_equal.
  - f_equal. assert (Ht : forall a, In a (snd t) -> av E a = av E' a).
    { intros a Ha. apply (H (fst t) (snd t)); [left; destruct t; reflexivity|exact Ha]. }
    clear - Ht. induction (snd t) as [|a m IH]; [reflexivity|]. rewrite !mv_cons, IH by (intros; apply Ht; right; assumption).
    f_equal. apply Ht. left; reflexivity.
  - apply IH. intros c m a Hm. apply (H c). right; exact Hm.
Qed.

Section Expansion.
  Context {A : RAlg} (E : env A).
  Hypothesis HE : algebraic E.
  Hypothesis H1 : e_small E = c1.
  Hypothesis HM : forall i, e_fn E (FMean i) = e_fn E (FField i).
  Add Ring A_ring4 : (c_th A).
  Open Scope ra_scope.

  Variable n : nat.
  Lemma shift_expansion S p : (forall i, (i < n)%nat -> In i S) ->
    (forall c m a, In (c, m) p -> In a m -> user_atom n a) ->
    pv (shift (E3 A E) S) p = expansion E p.
  Proof.
    intros HS Hp. unfold expansion, t_poly, pv.
    induction p as [|t p IH]; [reflexivity|]. cbn [fold_right].
    rewrite IH by (intros; eapply Hp; [right; eassumption|eassumption]). clear IH.
    change (cadd (r := triA A)) with (t_add (A := A)). f_equal.
    change (cmul (r := triA A)) with (t_mul (A := A)). f_equal.
    assert (Ht : forall a, In a (snd t) -> user_atom n a).
    { intros a Ha. apply (Hp (fst t) (snd t)); [left; destruct t; reflexivity|exact Ha]. }
    clear Hp. induction (snd t) as [|a m IH]; [reflexivity|].
    rewrite mv_cons, IH by (intros; apply Ht; right; assumption). unfold t_mono. cbn [fold_right].
    change (cmul (r := triA A)) with (t_mul (A := A)). f_equal.
    specialize (Ht a (or_introl eq_refl)). destruct a; try (exfalso; exact Ht); [|reflexivity].
    destruct f; try (exfalso; exact Ht).
    - cbn [user_atom] in Ht. cbn [av shift e_fn t_atom E3 e_small]. destruct (in_dec Nat.eq_dec i S) as [|Hn]; [|exfalso; auto].
      rewrite HM. transitivity (dds (A := triA A) w (e_fn E (FField i), e_fn E (FErr i), 0)); [|rewrite tri_dds, dds_0; reflexivity].
      f_equal. unfold inj, hh, t_const. cbn. apply tri_eq; ring.
    - cbn [av shift e_fn t_atom E3]. symmetry. apply inj_dds.
  Qed.

  Lemma subs_reynolds_value enumF eqs p : (forall l : list (fn * poly), Permutation (enumF l) l) ->
    n = List.length eqs ->
    (forall c m a, In (c, m) p -> In a m -> user_atom n a) ->
    pv (E3 A E) (subs_reynolds enumF eqs p) = expansion E p.
  Proof.
    intros HF Hn Hp.
    change (subs_reynolds enumF eqs p) with (sub_fns (enumF (map (fun i => (FField i, reynolds_value i)) (fields eqs))) p).
    assert (exists l, enumF (map (fun i => (FField i, reynolds_value i)) (fields eqs)) = map (fun i => (FField i, reynolds_value i)) l
             /\ forall i, (i < n)%nat -> In i l) as (l & -> & Hl).
    { pose proof (HF (map (fun i => (FField i, reynolds_value i)) (fields eqs))) as HP.
      destruct (Permutation_map_inv _ _ HP) as (l & He & HPl).
      exists l. split; [exact He|]. intros i Hi. apply (Permutation_in _ HPl). unfold fields. apply in_seq.
      unfold nfields. lia. }
    transitivity (pv (shift (E3 A E) []) (sub_fns (map (fun i => (FField i, reynolds_value i)) l) p)).
    - apply pv_ext. intros c m a _ _. destruct a; try reflexivity.
      + cbn [av shift e_fn]. destruct f; reflexivity.
      + cbn [av]. f_equal. f_equal. unfold jprod. induction l0 as [|j l0 IH]; [reflexivity|]. cbn [fold_right]. rewrite IH.
        f_equal. unfold jv. destruct (fst j); reflexivity.
    - rewrite (sub_all _ (E3_algebraic A E HE)).
      + rewrite app_nil_r. apply shift_expansion; assumption.
      + intros c m Hm a Ha. specialize (Hp c m a Hm Ha). destruct a; try exact I. destruct Hp.
  Qed.
End Expansion.
