(** Histories of objects SymbolicPKF. *)
From Coq Require Import List Arith ZArith QArith Bool String Permutation Lia.
From Verif Require Import PyBase PyBaseFacts PartialOrderModel TreeModel TreeProps PKFModel PKFSpec PKFAlg PKFAtoms PKFClosure PKFProofs PKFInv PKFShape
  PKFObjModel PKFObjSpec PKFObjProofs.
Import ListNotations.
Close Scope Q_scope.
Close Scope Z_scope.
Open Scope nat_scope.
Open Scope string_scope.
Open Scope list_scope.

Lemma mapS_cons {A B} (f : A -> M B) a l s b s1 bs s2 : f a s = (Ok b, s1) -> mapS f l s1 = (Ok bs, s2) -> mapS f (a :: l) s = (Ok (b :: bs), s2).
Proof. intros H1 H2. cbn [mapS]. unfold bindM. rewrite H1, H2. reflexivity. Qed.

Section Closed.
  Variables (enum : list mi -> list mi) (enumD : tdict -> tdict) (enumC : edict -> edict)
            (enumF : list (fn * poly) -> list (fn * poly)) (enumU : list fn -> list fn).
  Hypothesis HR : rearrangements enum enumD enumC enumF enumU.
  Let Henum := proj1 HR.
  Let HenumD := proj1 (proj2 HR).
  Let HenumC := proj1 (proj2 (proj2 HR)).
  Let HenumF := proj1 (proj2 (proj2 (proj2 HR))).
  Let HenumU := proj2 (proj2 (proj2 (proj2 HR))).
  Notation coh := (coh enum enumD enumC enumF enumU).
  Notation gives := (gives enum enumD enumC enumF enumU).
  Section One.
  Variables (coords : list string) (eqs : list poly) (closure : edict).
  Hypothesis Hcoords : NoDup coords.
  Hypothesis Hne : coords <> [].
  Hypothesis HU : user_system eqs.

  Definition covs (o : option psystem) : Prop :=
    forall v, o = Some v -> cross_covariance_system enum enumD enumC enumF enumU coords eqs = Ok (Some v).
  Lemma coh_change P (Q : option psystem -> Prop) s : coh coords eqs closure P s -> Q (s_covariance s) -> coh coords eqs closure Q s.
  Proof. intros [] H. constructor; auto. Qed.
  Lemma coh_set P (Q : option psystem -> Prop) v s : coh coords eqs closure P s -> Q (Some v) -> coh coords eqs closure Q (set_covariance v s).
  Proof. intros [] H. constructor; auto. Qed.

  Lemma gives_run {A} P (m : M A) r a s : gives coords eqs closure P m r -> r = Ok a -> coh coords eqs closure P s ->
    exists s', m s = (Ok a, s') /\ coh coords eqs closure P s'.
  Proof. intros H -> Hs. destruct (H s Hs) as [E C]. exists (snd (m s)). split; [rewrite <- E; destruct (m s); reflexivity|exact C]. Qed.
  Notation loop_body tr := (fun ij : nat * nat => let '(i, j) := ij in
                  bindM (m_internal enum coords eqs) (fun cl =>
                  bindM (lift (dgetE jets_eq_dec (jkey [(FErr i, []); (FErr j, [])]) cl)) (fun V12 =>
                  let rhs := sub_trends (enumF tr) (expect (pderiv "t" (pmul (pfn (FErr i)) (pfn (FErr j))))) in
                  let rhs := sub_fns (enumF (subs_error eqs)) rhs in
                  bindM (m_apply enum enumD enumC enumU coords eqs rhs) (fun rhs =>
                  store (appended (pderiv "t" V12, rhs)))))).
  Lemma covariance_loop tr l : forall ls acc s, mapM (covariance_equation enum enumD enumC enumF enumU coords eqs tr) l = Ok ls ->
    coh coords eqs closure (eq (Some acc)) s ->
    exists s' us, mapS (loop_body tr) l s = (Ok us, s') /\ coh coords eqs closure (eq (Some (acc ++ ls))) s'.
  Proof.
    induction l as [|[i j] l IH]; intros ls acc s Hl Hs; cbn [mapM] in Hl.
    { apply Ok_inj in Hl. subst ls. exists s, []. rewrite app_nil_r. auto. }
    destruct (covariance_equation enum enumD enumC enumF enumU coords eqs tr (i, j)) as [q|] eqn:Hq; cbn [bind] in Hl; [|discriminate].
    destruct (mapM _ l) as [ls'|] eqn:Hl'; cbn [bind] in Hl; [|discriminate]. apply Ok_inj in Hl. subst ls.
    unfold covariance_equation in Hq.
    destruct (internal_closure enum coords eqs) as [cl|] eqn:Hcl; cbn [bind] in Hq; [|discriminate].
    destruct (dgetE jets_eq_dec (jkey [(FErr i, []); (FErr j, [])]) cl) as [V|] eqn:HV; cbn [bind] in Hq; [|discriminate].
    destruct (apply_internal_closure _ _ _ _ _ _ _) as [r|] eqn:Hr; cbn [bind] in Hq; [|discriminate]. apply Ok_inj in Hq. subst q.
    destruct (gives_run (eq (Some acc)) _ _ cl s (gives_internal enum enumD enumC enumF enumU coords eqs closure HR Hne _) Hcl Hs) as (s1 & M1 & C1).
    destruct (gives_run (eq (Some acc)) _ _ r s1 (gives_apply enum enumD enumC enumF enumU coords eqs closure HR Hcoords Hne _ _) Hr C1) as (s2 & M2 & C2).
    assert (C3 : coh coords eqs closure (eq (Some (acc ++ [(pderiv "t" V, r)]))) (appended (pderiv "t" V, r) s2)).
    { unfold appended. apply (coh_set (eq (Some acc))); [exact C2|]. rewrite <- (c_cov _ _ _ _ _ _ _ _ _ _ C2). reflexivity. }
    destruct (IH ls' _ _ eq_refl C3) as (s3 & us & M3 & C4).
    exists s3, (tt :: us). split; [|rewrite <- app_assoc in C4; exact C4].
    refine (mapS_cons _ _ _ _ _ _ _ _ _ M3). cbv beta iota. unfold bindM, lift, store. rewrite M1, HV, M2. reflexivity.
  Qed.
  Lemma gives_covariance : gives coords eqs closure covs (m_covariance enum enumD enumC enumF enumU coords eqs)
    (cross_covariance_system enum enumD enumC enumF enumU coords eqs).
  Proof.
    intros s Hs. unfold m_covariance. destruct (s_covariance s) as [v|] eqn:Ev.
    { split; [symmetry; apply (c_cov _ _ _ _ _ _ _ _ _ _ Hs), Ev|exact Hs]. }
    destruct (covariance_ok enum enumD enumC enumF enumU no_tensor coords eqs) as (c & Hc & _ & Hn); auto. pose proof Hc as Hc'.
    unfold cross_covariance_system in Hc. destruct (Nat.eqb (nfields eqs) 1) eqn:E1.
    { apply Ok_inj in Hc. subst c. split; [symmetry; exact Hc'|exact Hs]. }
    destruct (error_system enum enumC enumF coords eqs) as [es|] eqn:Hes; cbn [bind] in Hc; [|discriminate].
    destruct (trend_dict es) as [tr|] eqn:Htr; cbn [bind] in Hc; [|discriminate].
    destruct (mapM (covariance_equation enum enumD enumC enumF enumU coords eqs tr) (couples eqs)) as [l|] eqn:Hl; cbn [bind] in Hc; [|discriminate].
    apply Ok_inj in Hc. subst c.
    destruct (gives_run covs _ _ es s (gives_error enum enumD enumC enumF enumU coords eqs closure HR Hne _) Hes Hs) as (s1 & M1 & C1).
    destruct (covariance_loop tr (couples eqs) l [] (set_covariance [] s1) Hl) as (s2 & us & M2 & C2); [apply (coh_set covs); [exact C1|reflexivity]|].
    match goal with |- fst ?x = _ /\ _ => assert (G : x = (Ok (Some l), s2)) end.
    { unfold bindM at 1. rewrite M1. unfold bindM at 1. unfold lift at 1. rewrite Htr. unfold bindM at 1. unfold store at 1. unfold bindM at 1.
      match goal with |- context [mapS ?f ?l ?x] => change (mapS f l x) with (mapS (loop_body tr) l x) end. rewrite M2.
      rewrite <- (c_cov _ _ _ _ _ _ _ _ _ _ C2). reflexivity. }
    rewrite G. cbn [fst snd]. split; [symmetry; exact Hc'|]. apply (coh_change _ covs s2 C2). rewrite <- (c_cov _ _ _ _ _ _ _ _ _ _ C2).
    intros v [= <-]. exact Hc'.
  Qed.
  Notation GV := (gives coords eqs closure covs).
  Lemma gives_in_metric : GV (m_in_metric enum enumD enumC enumF enumU coords eqs closure) (in_metric enum enumD enumC enumF enumU coords eqs closure).
  Proof.
    apply gives_memo; [intros s; apply c_im|intros s v [] Hv; constructor; auto; apply is_some; exact Hv|].
    apply gives_bind; [eapply gives_expectation; auto|]. intros e _. apply gives_bind; [eapply gives_variance; auto|]. intros v _.
    apply gives_bind; [apply gives_covariance|]. intros c _. apply gives_bind; [eapply gives_metric; auto|]. intros m _. apply gives_ret.
  Qed.
  Lemma gives_in_tensor get set tensor inv scale factor cov :
    (forall s, coh coords eqs closure covs s -> is (get s) (in_tensor enum enumD enumC enumF enumU coords eqs closure tensor inv scale factor cov)) ->
    (forall s v, coh coords eqs closure covs s -> in_tensor enum enumD enumC enumF enumU coords eqs closure tensor inv scale factor cov = Ok v -> coh coords eqs closure covs (set v s)) ->
    GV (m_in_tensor enum enumD enumC enumF enumU coords eqs closure get set tensor inv scale factor cov)
       (in_tensor enum enumD enumC enumF enumU coords eqs closure tensor inv scale factor cov).
  Proof.
    intros H1 H2. apply gives_memo; [exact H1|exact H2|].
    apply gives_bind; [eapply gives_metric; auto|]. intros m _. apply gives_bind; [apply gives_lift|]. intros tr _.
    apply gives_bind; [eapply gives_expectation; auto|]. intros e _. apply gives_bind; [eapply gives_variance; auto|]. intros v _.
    apply gives_bind; [destruct cov; [apply gives_covariance|apply gives_ret]|]. intros c _. apply gives_ret.
  Qed.
  Lemma gives_in_diffusion : GV (m_in_diffusion enum enumD enumC enumF enumU coords eqs closure) (in_diffusion enum enumD enumC enumF enumU coords eqs closure).
  Proof. apply gives_in_tensor; [intros s; apply c_id|intros s v [] Hv; constructor; auto; apply is_some; exact Hv]. Qed.
  Lemma gives_in_aspect : GV (m_in_aspect enum enumD enumC enumF enumU coords eqs closure) (in_aspect enum enumD enumC enumF enumU coords eqs closure).
  Proof. apply gives_in_tensor; [intros s; apply c_ia|intros s v [] Hv; constructor; auto; apply is_some; exact Hv]. Qed.
  Lemma gives_unclosed : GV (m_unclosed enum enumD enumC enumF enumU coords eqs closure) (unclosed_terms enum enumD enumC enumF enumU coords eqs closure).
  Proof. apply gives_bind; [apply gives_in_metric|]. intros s _. apply gives_ret. Qed.

  Lemma gives_as {A} (f : A -> answer) m r s : GV m r -> coh coords eqs closure covs s ->
    fst (as_system f (m s)) = bind r (fun a => Ok (f a)) /\ coh coords eqs closure covs (snd (as_system f (m s))).
  Proof. intros H Hs. destruct (H s Hs) as [E C]. unfold as_system. cbn [fst snd]. rewrite E. split; [destruct r; reflexivity|exact C]. Qed.
  Lemma ask_fresh q s : coh coords eqs closure covs s ->
    fst (ask enum enumD enumC enumF enumU coords eqs closure q s) = fresh enum enumD enumC enumF enumU coords eqs closure q
    /\ coh coords eqs closure covs (snd (ask enum enumD enumC enumF enumU coords eqs closure q s)).
  Proof.
    intros Hs. destruct q; cbn [ask fresh]; unfold of_system;
    try (apply (gives_as (fun v => ASystem (Some v))); [|exact Hs]).
    - destruct (gives_as (fun v => ASystem (Some v)) _ _ s (gives_first _ _ _ _ _ coords eqs closure covs) Hs) as [E C]. split; [exact E|exact C].
    - destruct (gives_as (fun v => ASystem (Some v)) _ _ s (gives_second _ _ _ _ _ coords eqs closure covs) Hs) as [E C]. split; [exact E|exact C].
    - eapply gives_expectation; auto.
    - eapply gives_tl; auto.
    - eapply gives_error; auto.
    - eapply gives_variance; auto.
    - eapply gives_epsilon; auto.
    - apply (gives_as ASystem); [apply gives_covariance|exact Hs].
    - eapply gives_metric; auto.
    - apply gives_in_metric.
    - apply gives_in_diffusion.
    - apply gives_in_aspect.
    - apply (gives_as ADict); [eapply gives_internal; auto|exact Hs].
    - apply (gives_as ATerms); [apply gives_unclosed|exact Hs].
    - split; [reflexivity|exact Hs].
  Qed.
  End One.

  Lemma coh_reset coords eqs D D' s : coh coords eqs D (covs coords eqs) s -> coh coords eqs D' (covs coords eqs) (reset s).
  Proof. intros []. constructor; auto; cbn; apply is_none. Qed.
  Lemma coh_init coords eqs D n : coh coords eqs D (covs coords eqs) (s_init n).
  Proof.
    constructor; try apply is_none. { intros v H. discriminate. }
    intros i. assert (E : nth i (s_fields (s_init n)) f_init = f_init) by (cbn; destruct (Nat.lt_ge_cases i n); [apply nth_repeat|apply nth_overflow; rewrite repeat_length; lia]).
    rewrite E. split; [exists []; reflexivity|apply is_none].
  Qed.
  Notation step := (step enum enumD enumC enumF enumU).
  Notation run := (run enum enumD enumC enumF enumU).
  Notation unshared := (unshared enum enumD enumC enumF enumU).

  Record holds_at (coords : list string) (eqs : list poly) (o a : nat) (D : edict) (w : world) (y : obj) : Prop := mkHolds {
    h_obj : nth_error (w_objs w) o = Some y;
    h_coords : o_coords y = coords; h_eqs : o_eqs y = eqs; h_addr : o_closure y = a;
    h_lt : a < List.length (w_dicts w); h_dict : dict_at w a = D;
    h_coh : coh coords eqs D (covs coords eqs) (o_state y) }.

  Lemma dict_set w a b v : a < List.length (w_dicts w) -> nth a (set_nth b v (w_dicts w)) [] = if Nat.eqb b a then v else dict_at w a.
  Proof.
    intros H. rewrite nth_set_nth. destruct (Nat.eqb_spec b a) as [->|]; [|reflexivity]. destruct (Nat.ltb_spec a (List.length (w_dicts w))); [reflexivity|lia].
  Qed.
  Section Two.
  Variables (coords : list string) (eqs : list poly).
  Hypothesis Hcoords : NoDup coords.
  Hypothesis Hne : coords <> [].
  Hypothesis HU : user_system eqs.
  Lemma step_holds o a D w y x : holds_at coords eqs o a D w y -> ~ foreign w o a x ->
    exists y', holds_at coords eqs o a (merged D (given o [x])) (snd (step w x)) y'.
  Proof.
    intros [Ho Hc He Ha Hl Hd Hs] Hf. unfold given, merged. cbn [flat_map]. rewrite app_nil_r. destruct x as [d|a' k v|cs es c|o' d|o' q]; cbn [step].
    - exists y. constructor; auto; cbn [snd w_dicts].
      + rewrite app_length. lia. + unfold dict_at in *. cbn [w_dicts]. rewrite app_nth1; [exact Hd|exact Hl].
    - exists y. constructor; auto; cbn [snd w_dicts].
      + rewrite set_nth_length. exact Hl. + unfold dict_at at 1. cbn [w_dicts]. rewrite dict_set by exact Hl. destruct (Nat.eqb_spec a' a) as [E|_]; [|exact Hd].
        exfalso. apply Hf. exact E.
    - assert (Ho' : o < List.length (w_objs w)) by (apply nth_error_Some; congruence).
      destruct c as [c|]; exists y; constructor; auto; cbn [snd w_dicts w_objs]; try (rewrite nth_error_app1; assumption).
      + rewrite app_length. lia. + unfold dict_at in *. cbn [w_dicts]. rewrite app_nth1; [exact Hd|exact Hl].
    - destruct (nth_error (w_objs w) o') as [z|] eqn:Ez.
      + cbn [snd]. destruct (Nat.eqb_spec o' o) as [->|Hoo].
        * rewrite Ho in Ez. injection Ez as <-. eexists. constructor; cbn [w_objs w_dicts].
          -- rewrite nth_error_set_nth. destruct (Nat.eqb_spec o o); [|congruence]. destruct (Nat.ltb_spec o (List.length (w_objs w))); [reflexivity|].
             apply nth_error_None in H. congruence.
          -- exact Hc. -- exact He. -- exact Ha. -- rewrite set_nth_length. exact Hl.
          -- unfold dict_at at 1. cbn [w_dicts]. rewrite Ha, dict_set by exact Hl. rewrite Nat.eqb_refl, Hd. reflexivity.
          -- cbn [o_state fold_left]. apply (coh_reset coords eqs D), Hs.
        * exists y. cbn [fold_left]. constructor; auto; cbn [w_objs w_dicts].
          -- rewrite nth_error_set_nth. destruct (Nat.eqb_spec o' o); [congruence|]. destruct (Nat.eqb_spec o o'); [congruence|exact Ho].
          -- rewrite set_nth_length. exact Hl.
          -- unfold dict_at at 1. cbn [w_dicts]. rewrite dict_set by exact Hl. destruct (Nat.eqb_spec (o_closure z) a) as [E|_]; [|exact Hd].
             exfalso. apply Hf. split; [exact Hoo|]. exists z. auto.
      + cbn [snd]. destruct (Nat.eqb_spec o' o) as [->|Hoo]; [congruence|]. exists y. constructor; auto.
    - destruct (nth_error (w_objs w) o') as [z|] eqn:Ez; [|exists y; constructor; auto].
      destruct (ask enum enumD enumC enumF enumU (o_coords z) (o_eqs z) (dict_at w (o_closure z)) q (o_state z)) as [r s] eqn:Eq. cbn [snd fold_left].
      destruct (Nat.eq_dec o' o) as [->|Hoo].
      + rewrite Ho in Ez. injection Ez as <-. eexists. constructor; cbn [w_objs w_dicts].
        * rewrite nth_error_set_nth. destruct (Nat.eqb_spec o o); [|congruence]. destruct (Nat.ltb_spec o (List.length (w_objs w))); [reflexivity|].
          apply nth_error_None in H. congruence.
        * exact Hc. * exact He. * exact Ha. * exact Hl. * exact Hd.
        * cbn [o_state]. rewrite Hc, He, Ha, Hd in Eq. pose proof (proj2 (ask_fresh coords eqs D Hcoords Hne HU q _ Hs)) as H. rewrite Eq in H. exact H.
      + exists y. constructor; auto; cbn [w_objs w_dicts]. rewrite nth_error_set_nth. destruct (Nat.eqb_spec o' o); [congruence|]. destruct (Nat.eqb_spec o o'); [congruence|exact Ho].
  Qed.
  Lemma given_cons o x h : given o (x :: h) = given o [x] ++ given o h.
  Proof. unfold given. cbn [flat_map]. rewrite app_nil_r. reflexivity. Qed.
  Lemma run_holds o a h : forall D w y, holds_at coords eqs o a D w y -> unshared w o h ->
    exists y', holds_at coords eqs o a (merged D (given o h)) (run w h) y'.
  Proof.
    induction h as [|x h IH]; intros D w y Hw Hu; [exists y; exact Hw|]. destruct Hu as [H1 H2].
    destruct (step_holds o a D w y x Hw) as (y1 & Hw1).
    { pose proof (H1 y (h_obj _ _ _ _ _ _ _ Hw)) as H. rewrite (h_addr _ _ _ _ _ _ _ Hw) in H. exact H. }
    destruct (IH _ _ _ Hw1 H2) as (y2 & Hw2). exists y2. rewrite given_cons. unfold merged in *. rewrite fold_left_app. exact Hw2.
  Qed.
  Lemma created w c : (match c with Some a => a < List.length (w_dicts w) | None => True end) ->
    exists a y, holds_at coords eqs (List.length (w_objs w)) a (match c with Some a => dict_at w a | None => [] end) (snd (step w (NewPKF coords eqs c))) y.
  Proof.
    intros Hc. destruct c as [a|]; cbn [step snd].
    - exists a. eexists. constructor; cbn [w_objs w_dicts].
      + rewrite nth_error_app2 by lia. rewrite Nat.sub_diag. reflexivity.
      + reflexivity. + reflexivity. + reflexivity. + exact Hc. + reflexivity. + apply coh_init.
    - exists (List.length (w_dicts w)). eexists. constructor; cbn [w_objs w_dicts].
      + rewrite nth_error_app2 by lia. rewrite Nat.sub_diag. reflexivity.
      + reflexivity. + reflexivity. + reflexivity. + rewrite app_length. cbn. lia.
      + unfold dict_at. cbn [w_dicts]. rewrite app_nth2 by lia. rewrite Nat.sub_diag. reflexivity. + apply coh_init.
  Qed.
  Lemma history_coherent w c h q : (match c with Some a => a < List.length (w_dicts w) | None => True end) ->
    unshared (snd (step w (NewPKF coords eqs c))) (List.length (w_objs w)) h ->
    fst (step (run (snd (step w (NewPKF coords eqs c))) h) (Ask (List.length (w_objs w)) q))
    = fresh enum enumD enumC enumF enumU coords eqs
        (merged (match c with Some a => dict_at w a | None => [] end) (given (List.length (w_objs w)) h)) q.
  Proof.
    intros Hc Hu. destruct (created w c Hc) as (a & y & Hw). destruct (run_holds _ a h _ _ _ Hw Hu) as (y' & []).
    set (W := run _ h) in *. clearbody W. cbn [step]. rewrite h_obj0, h_coords0, h_eqs0, h_addr0, h_dict0.
    pose proof (proj1 (ask_fresh coords eqs _ Hcoords Hne HU q _ h_coh0)) as E.
    destruct (ask _ _ _ _ _ _ _ _ _ _) as [r s]. exact E.
  Qed.
  End Two.
End Closed.
