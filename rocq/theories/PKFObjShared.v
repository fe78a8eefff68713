(** Shared closures and failures of objects SymbolicPKF. *)
From Coq Require Import List Arith ZArith QArith Bool String Permutation Lia.
From Verif Require Import PyBase PyBaseFacts PartialOrderModel PartialOrderProofs TreeModel TreeProps PKFModel PKFSpec PKFProofs PKFInst PKFInstMore
  PKFObjModel PKFObjSpec PKFObjProofs.
Import ListNotations.
Close Scope Q_scope.
Close Scope Z_scope.
Open Scope nat_scope.
Open Scope string_scope.
Open Scope list_scope.

Definition closed_query (q : query) : Prop := q = QInMetric \/ q = QInDiffusion \/ q = QInAspect.

Section Shared.
  Variables (enum : list mi -> list mi) (enumD : tdict -> tdict) (enumC : edict -> edict)
            (enumF : list (fn * poly) -> list (fn * poly)) (enumU : list fn -> list fn).
  Notation step := (step enum enumD enumC enumF enumU).
  Notation run := (run enum enumD enumC enumF enumU).
  Notation ask := (ask enum enumD enumC enumF enumU).

  Lemma callers_dict w o y d : nth_error (w_objs w) o = Some y -> o_closure y < List.length (w_dicts w) ->
    dict_at (snd (step w (SetClosure o d))) (o_closure y) = dupdate (dict_at w (o_closure y)) d.
  Proof.
    intros Hy Hl. cbn [step]. rewrite Hy. cbn [snd]. unfold dict_at at 1. cbn [w_dicts]. rewrite nth_set_nth, Nat.eqb_refl.
    destruct (Nat.ltb_spec (o_closure y) (List.length (w_dicts w))); [reflexivity|lia].
  Qed.
  (** after a first answer, the answer is remembered whatever the closure *)
  Lemma memo_again {A} get set (m m' : M A) s : (forall v s, get (set v s) = Some v) ->
    forall v, fst (memo get set m s) = Ok v -> fst (memo get set m' (snd (memo get set m s))) = Ok v.
  Proof.
    intros Hg v. unfold memo. destruct (get s) as [v'|] eqn:E.
    - cbn [fst snd]. rewrite E. intros H. exact H.
    - destruct (m s) as [[a|e] s']; cbn [fst snd]; [|discriminate]. intros H. rewrite Hg. exact H.
  Qed.
  Lemma ask_again coords eqs c c' q s a : closed_query q -> fst (ask coords eqs c q s) = Ok a ->
    fst (ask coords eqs c' q (snd (ask coords eqs c q s))) = Ok a.
  Proof.
    assert (G : forall (f : psystem -> answer) (m m' : M psystem), (forall v, fst (m s) = Ok v -> fst (m' (snd (m s))) = Ok v) ->
              fst (as_system f (m s)) = Ok a -> fst (as_system f (m' (snd (as_system f (m s))))) = Ok a).
    { intros f m m' H. unfold as_system. cbn [fst snd]. destruct (fst (m s)) as [v|] eqn:E; [|discriminate]. rewrite (H v eq_refl). auto. }
    intros [->|[->| ->]]; cbn [ask]; apply G; intros v; apply memo_again; reflexivity.
  Qed.
  Lemma stale w o p x y d q a : o <> p -> nth_error (w_objs w) o = Some x -> nth_error (w_objs w) p = Some y -> closed_query q ->
    fst (step w (Ask p q)) = Ok a ->
    fst (step (run w [Ask p q; SetClosure o d]) (Ask p q)) = Ok a.
  Proof.
    intros Hop Hx Hy Hq Ha. unfold PKFObjModel.run. cbn [fold_left]. cbn [step] in Ha. rewrite Hy in Ha.
    cbn [step]. rewrite Hy. destruct (ask (o_coords y) (o_eqs y) (dict_at w (o_closure y)) q (o_state y)) as [r s] eqn:E. cbn [fst snd w_objs w_dicts] in *. subst r.
    assert (Hpl : p < List.length (w_objs w)) by (apply nth_error_Some; congruence).
    rewrite nth_error_set_nth. destruct (Nat.eqb_spec p o); [congruence|]. destruct (Nat.eqb_spec o p); [congruence|]. rewrite Hx. cbn [snd w_objs w_dicts].
    rewrite !nth_error_set_nth. rewrite Nat.eqb_refl.
    destruct (Nat.eqb_spec p o); [congruence|]. destruct (Nat.eqb_spec o p); [congruence|].
    destruct (Nat.ltb_spec p (List.length (w_objs w))); [|lia]. cbn [o_coords o_eqs o_closure o_state].
    match goal with |- context [PKFObjModel.ask _ _ _ _ _ _ _ ?C q s] => set (c' := C) end.
    pose proof (ask_again (o_coords y) (o_eqs y) (dict_at w (o_closure y)) c' q (o_state y) a Hq) as Hag. rewrite E in Hag. specialize (Hag eq_refl). cbn [snd] in Hag.
    destruct (ask _ _ c' q s) as [r s']. exact Hag.
  Qed.

  Lemma retry w eqs : eqs <> [] ->
    let w' := run w [NewPKF [] eqs None] in
    let o := List.length (w_objs w) in
    fst (step w' (Ask o QInternal)) = Err IndexError
    /\ fst (step (run w' [Ask o QInternal]) (Ask o QInternal)) = Ok (ADict []).
  Proof.
    intros He w' o.
    assert (Hy : nth_error (w_objs w') o = Some (mkObj [] eqs (List.length (w_dicts w)) (s_init (List.length eqs)))).
    { unfold w', PKFObjModel.run. cbn [fold_left step snd w_objs]. unfold o. rewrite nth_error_app2 by lia. rewrite Nat.sub_diag. reflexivity. }
    assert (Hm : m_internal enum [] eqs (s_init (List.length eqs)) = (Err IndexError, set_internal [] (s_init (List.length eqs)))).
    { unfold m_internal. cbn [s_internal s_init]. unfold bindM at 1. unfold store at 1. unfold bindM at 1.
      assert (E : exists l, fields eqs = 0 :: l) by (unfold fields, nfields; destruct eqs; [congruence|]; eexists; reflexivity). destruct E as (l & ->).
      cbn [mapS]. unfold bindM at 1. unfold bindM at 1. unfold m_field_closure at 1. cbn [set_internal s_fields s_init].
      assert (E2 : nth 0 (repeat f_init (List.length eqs)) f_init = f_init) by (destruct eqs; [congruence|reflexivity]). rewrite E2. cbn [f_init f_closure].
      assert (E3 : field_closure enum [] 0 = Err IndexError) by (unfold field_closure; rewrite C37_no_coordinate; reflexivity). rewrite E3. reflexivity. }
    assert (Hol : o < List.length (w_objs w')) by (apply nth_error_Some; congruence).
    clearbody w' o. split.
    - cbn [step]. rewrite Hy. cbn [o_coords o_eqs o_state ask]. rewrite Hm. reflexivity.
    - unfold PKFObjModel.run. cbn [fold_left]. cbn [step]. rewrite Hy. cbn [o_coords o_eqs o_state o_closure ask]. rewrite Hm. cbn [as_system fst snd w_objs].
      rewrite nth_error_set_nth, Nat.eqb_refl. destruct (Nat.ltb_spec o (List.length (w_objs w'))); [|lia]. reflexivity.
  Qed.
End Shared.

Definition logistic : list poly := [ [(1%Q, [AJet (FField 0) []]); ((-1)%Q, [AJet (FField 0) []; AJet (FField 0) []])] ].
Definition burgers_key : list jet := jkey [(FEps 0, []); (FEps 0, ["x"; "x"; "x"; "x"])].
(** two objects with one closure *)
Definition sharing : list op := [NewDict []; NewPKF ["x"] burgers (Some 0); NewPKF ["x"] burgers (Some 0); Ask 1 QInMetric; SetClosure 0 [(burgers_key, [])]].

Lemma sharing_stale : let w := run same same same same same empty_world sharing in
  fst (step same same same same same w (Ask 1 QClosure)) = Ok (ADict [(burgers_key, [])])
  /\ fst (step same same same same same w (Ask 1 QInMetric)) <> fresh same same same same same ["x"] burgers [(burgers_key, [])] QInMetric
  /\ fst (step same same same same same w (Ask 0 QInMetric)) = fresh same same same same same ["x"] burgers [(burgers_key, [])] QInMetric.
Proof. vm_compute. split; [reflexivity|]. split; [discriminate|reflexivity]. Qed.
Lemma expectation_retry : let w := run same same same same same empty_world [NewPKF [] logistic None] in
  fst (step same same same same same w (Ask 0 QExpectation)) = Err IndexError
  /\ exists s q, fst (step same same same same same (run same same same same same w [Ask 0 QExpectation]) (Ask 0 QExpectation)) = Ok (ASystem (Some s))
     /\ In q s /\ averaged_in [(FEps 0, []); (FEps 0, [])] (snd q).
Proof.
  split; [vm_compute; reflexivity|]. eexists. eexists. split; [vm_compute; reflexivity|]. split; [left; reflexivity|]. cbn [snd].
  eexists _, _, _. split; [left; reflexivity|]. right. right. left. reflexivity.
Qed.
Lemma logistic_user : user_system logistic.
Proof.
  intros p c m a [<-|[]] Hm Ha. destruct Hm as [E|[E|[]]]; injection E as <- <-; repeat (destruct Ha as [<-|Ha]; [cbn; auto|]); destruct Ha.
Qed.
