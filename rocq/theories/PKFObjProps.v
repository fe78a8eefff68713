(** Properties C56, C57, C95: the memory of the objects SymbolicPKF. *)
From Coq Require Import List Arith ZArith QArith Bool String Permutation.
From Verif Require Import PyBase PartialOrderModel TreeModel PKFModel PKFSpec PKFInst PKFInstMore PKFExplicitMain
  PKFObjModel PKFObjSpec PKFObjMain PKFObjShared.
Import ListNotations.
Close Scope Q_scope.
Close Scope Z_scope.
Open Scope nat_scope.
Open Scope string_scope.
Open Scope list_scope.

(** C56: an object answers every query, after every history of queries and closures, as a fresh
    computation with the merged closure does, when nobody else changes its closure. *)
Theorem C56_history : forall enum enumD enumC enumF enumU, rearrangements enum enumD enumC enumF enumU ->
  forall coords eqs, NoDup coords -> coords <> [] -> user_system eqs ->
  forall w c h q, (match c with Some a => a < List.length (w_dicts w) | None => True end) ->
  let step := step enum enumD enumC enumF enumU in
  let run := run enum enumD enumC enumF enumU in
  let o := List.length (w_objs w) in
  let w' := snd (step w (NewPKF coords eqs c)) in
  unshared enum enumD enumC enumF enumU w' o h ->
  fst (step (run w' h) (Ask o q))
  = fresh enum enumD enumC enumF enumU coords eqs (merged (match c with Some a => dict_at w a | None => [] end) (given o h)) q.
Proof. intros. eapply history_coherent; eauto. Qed.

(** C57: set_closure of an object changes the dictionary that was given to its constructor. *)
Theorem C57_callers_dict : forall enum enumD enumC enumF enumU w o y d,
  nth_error (w_objs w) o = Some y -> o_closure y < List.length (w_dicts w) ->
  dict_at (snd (step enum enumD enumC enumF enumU w (SetClosure o d))) (o_closure y) = dupdate (dict_at w (o_closure y)) d.
Proof. exact callers_dict. Qed.

(** C57: another object goes on answering with the systems it has computed, whatever is given to
    set_closure of the first object. *)
Theorem C57_stale : forall enum enumD enumC enumF enumU w o p x y d q a,
  let step := step enum enumD enumC enumF enumU in
  o <> p -> nth_error (w_objs w) o = Some x -> nth_error (w_objs w) p = Some y -> q = QInMetric \/ q = QInDiffusion \/ q = QInAspect ->
  fst (step w (Ask p q)) = Ok a ->
  fst (step (run enum enumD enumC enumF enumU w [Ask p q; SetClosure o d]) (Ask p q)) = Ok a.
Proof. exact stale. Qed.

(** C57: so C56 fails when two objects share their closure: the property closure shows the new
    entry, in_metric does not use it. *)
Theorem C57_sharing_refuted : exists h, let w := run same same same same same empty_world h in
  fst (step same same same same same w (Ask 1 QClosure)) = Ok (ADict [(burgers_key, [])])
  /\ fst (step same same same same same w (Ask 1 QInMetric)) <> fresh same same same same same ["x"] burgers [(burgers_key, [])] QInMetric
  /\ fst (step same same same same same w (Ask 0 QInMetric)) = fresh same same same same same ["x"] burgers [(burgers_key, [])] QInMetric.
Proof. exists sharing. exact sharing_stale. Qed.

(** C95: for fields that depend on time only, internal_closure raises the first time and returns
    the empty dictionary the second time. *)
Theorem C95_retry : forall enum enumD enumC enumF enumU w eqs, eqs <> [] ->
  let step := step enum enumD enumC enumF enumU in
  let run := run enum enumD enumC enumF enumU in
  let w' := run w [NewPKF [] eqs None] in
  let o := List.length (w_objs w) in
  fst (step w' (Ask o QInternal)) = Err IndexError
  /\ fst (step (run w' [Ask o QInternal]) (Ask o QInternal)) = Ok (ADict []).
Proof. exact retry. Qed.

(** C95: so a query that failed can succeed when repeated, with averages of the internal closure
    left in the result: the claim "the answer to a query does not depend on earlier queries" is
    false without spatial coordinate. *)
Theorem C95_expectation_refuted : exists eqs, user_system eqs /\
  let w := run same same same same same empty_world [NewPKF [] eqs None] in
  fst (step same same same same same w (Ask 0 QExpectation)) = Err IndexError
  /\ exists s q, fst (step same same same same same (run same same same same same w [Ask 0 QExpectation]) (Ask 0 QExpectation)) = Ok (ASystem (Some s))
     /\ In q s /\ averaged_in [(FEps 0, []); (FEps 0, [])] (snd q).
Proof. exists logistic. split; [exact logistic_user|exact expectation_retry]. Qed.

(** C56 on Burgers: a closure set after a first answer is used by the second *)
Example C56_example : let w := snd (step same same same same same empty_world (NewPKF ["x"] burgers None)) in
  let h := [Ask 0 QInMetric; SetClosure 0 [(burgers_key, [])]; Ask 0 QEpsilon; NewDict []; NewPKF ["x"] burgers (Some 1); Ask 1 QInMetric] in
  fst (step same same same same same (run same same same same same w h) (Ask 0 QInMetric))
  = fresh same same same same same ["x"] burgers [(burgers_key, [])] QInMetric
  /\ fresh same same same same same ["x"] burgers [(burgers_key, [])] QInMetric <> fresh same same same same same ["x"] burgers [] QInMetric.
Proof.
  intros w h. split.
  - apply (C56_history same same same same same same_rearrangements ["x"] burgers ltac:(repeat constructor; intros []) ltac:(discriminate) burgers_user empty_world None h QInMetric I).
    cbn [unshared h]. repeat (split; [intros y _ F; cbn in F; solve [exact F|destruct F as [F _]; apply F; reflexivity]|]). exact I.
  - vm_compute. discriminate.
Qed.
Example C57_example_stale : let w := run same same same same same empty_world [NewDict []; NewPKF ["x"] burgers (Some 0); NewPKF ["x"] burgers (Some 0)] in
  exists a, fst (step same same same same same w (Ask 1 QInMetric)) = Ok a
  /\ fst (step same same same same same (run same same same same same w [Ask 1 QInMetric; SetClosure 0 [(burgers_key, [])]]) (Ask 1 QInMetric)) = Ok a.
Proof.
  intros w. eexists. split; [vm_compute; reflexivity|].
  eapply (C57_stale same same same same same w 0 1); [discriminate|reflexivity|reflexivity|left; reflexivity|vm_compute; reflexivity].
Qed.
Example C57_example_dict : let w := run same same same same same empty_world [NewDict []; NewPKF ["x"] burgers (Some 0); SetClosure 0 [(burgers_key, [])]] in
  dict_at w 0 = [(burgers_key, [])].
Proof. reflexivity. Qed.
Example C95_example : let w := run same same same same same empty_world [NewPKF [] logistic None] in
  fst (step same same same same same w (Ask 0 QInternal)) = Err IndexError
  /\ fst (step same same same same same (run same same same same same w [Ask 0 QInternal]) (Ask 0 QInternal)) = Ok (ADict []).
Proof. apply (C95_retry same same same same same empty_world logistic). discriminate. Qed.

Print Assumptions C56_history.
Print Assumptions C57_callers_dict.
Print Assumptions C57_stale.
Print Assumptions C57_sharing_refuted.
Print Assumptions C95_retry.
Print Assumptions C95_expectation_refuted.
