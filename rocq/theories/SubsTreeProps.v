(** C105: the property subs_tree of the objects SymbolicPKF, and the function gamma_subs. *)
From Coq Require Import List Arith ZArith QArith Qcanon Bool String Permutation Lia.
From Verif Require Import PyBase PartialOrderModel TreeModel Reynolds PKFModel PKFSpec PKFTimeSpec PKFInst PKFInstMore PKFExplicitMain
  PKFObjModel PKFObjSpec SubsTreeModel SubsTreeSpec SubsTreeMain.
Import ListNotations.
Close Scope Q_scope.
Close Scope Qc_scope.
Close Scope Z_scope.
Open Scope nat_scope.
Open Scope string_scope.
Open Scope list_scope.

(** Whatever was asked before, subs_tree answers.  Its keys are exactly the averages of products of
    two derivatives of one normalised error up to the degree reached by the tree of the field.  The
    averages left in a value are those of the error by one of its derivatives, of order 4 at least.
    Every entry is an identity of all statistics of the errors. *)
Theorem C105_subs_tree : forall enum enumD enumC enumF enumU, rearrangements enum enumD enumC enumF enumU ->
  forall coords eqs, NoDup coords -> coords <> [] -> user_system eqs ->
  forall w c h, (match c with Some a => a < List.length (w_dicts w) | None => True end) ->
  let o := List.length (w_objs w) in
  let w0 := snd (step enum enumD enumC enumF enumU w (NewPKF coords eqs c)) in
  unshared enum enumD enumC enumF enumU w0 o h ->
  let w1 := run enum enumD enumC enumF enumU w0 h in
  exists d, fst (read_tree enum enumD enumC w1 o) = Ok d
    /\ (forall l, In l (dkeys d) <-> exists i, i < List.length eqs /\ reducible coords i (degree_now w1 o i) l)
    /\ (forall l v, In (l, v) d -> exists i, i < List.length eqs /\ reducible coords i (degree_now w1 o i) l
          /\ forall l', averaged_in l' v -> irreducible coords i (degree_now w1 o i) l')
    /\ (forall (A : RAlg) (E : env A), statistics coords (List.length eqs) E -> closure_holds E d).
Proof.
  intros enum enumD enumC enumF enumU HR coords eqs H1 H2 H3 w c h Hc o w0 Hu w1.
  destruct (main_read enum enumD enumC enumF enumU HR coords eqs H1 H2 H3 w c h Hc Hu) as (d & E & K1 & K2 & K3 & _). exists d. auto.
Qed.

(** Reading it changes nothing that can be seen: not the degrees, not the next reading, not the
    answer to any query, now or later. *)
Theorem C105_silent : forall enum enumD enumC enumF enumU, rearrangements enum enumD enumC enumF enumU ->
  forall coords eqs, NoDup coords -> coords <> [] -> user_system eqs ->
  forall w c h, (match c with Some a => a < List.length (w_dicts w) | None => True end) ->
  let o := List.length (w_objs w) in
  let step := step enum enumD enumC enumF enumU in
  let run := run enum enumD enumC enumF enumU in
  let w0 := snd (step w (NewPKF coords eqs c)) in
  unshared enum enumD enumC enumF enumU w0 o h ->
  let r := read_tree enum enumD enumC (run w0 h) o in
  (forall i, degree_now (snd r) o i = degree_now (run w0 h) o i)
  /\ fst (read_tree enum enumD enumC (snd r) o) = fst r
  /\ forall h' q, unshared enum enumD enumC enumF enumU (snd r) o h' ->
       fst (step (run (snd r) h') (Ask o q))
       = fresh enum enumD enumC enumF enumU coords eqs (merged (match c with Some a => dict_at w a | None => [] end) (given o (h ++ h'))) q.
Proof.
  intros enum enumD enumC enumF enumU HR coords eqs H1 H2 H3 w c h Hc o step0 run0 w0 Hu r.
  destruct (main_read enum enumD enumC enumF enumU HR coords eqs H1 H2 H3 w c h Hc Hu) as (d & E & _ & _ & _ & K4 & K5).
  split; [exact K4|]. split; [unfold r; exact (eq_trans K5 (eq_sym E))|]. intros h' q Hu'.
  exact (main_silent enum enumD enumC enumF enumU HR coords eqs H1 H2 H3 w c h Hc Hu h' q Hu').
Qed.

(** A degree once reached is never lost: the averages subs_tree reduces are only added to. *)
Theorem C105_grows : forall enum enumD enumC enumF enumU w o i h,
  degree_now w o i <= degree_now (run enum enumD enumC enumF enumU w h) o i.
Proof. intros. apply degree_run. Qed.

(** The answer is not a function of the equations: it is empty for a new object, and has entries
    once the dynamics has been asked for. *)
Theorem C105_history_refuted : exists eqs h d d', user_system eqs
  /\ let w := run same same same same same empty_world [NewPKF ["x"] eqs None] in
     fst (read_tree same same same w 0) = Ok d
     /\ fst (read_tree same same same (run same same same same same w h) 0) = Ok d'
     /\ d = [] /\ List.length d' = 4 /\ In [(FEps 0, ["x"; "x"]); (FEps 0, ["x"; "x"])] (dkeys d').
Proof.
  exists burgers, [Ask 0 QInMetric]. do 2 eexists. split; [exact burgers_user|]. cbv zeta.
  split; [vm_compute; reflexivity|]. split; [vm_compute; reflexivity|]. split; [reflexivity|]. split; [reflexivity|]. vm_compute. tauto.
Qed.

(** gamma_subs: the average of D_k eps D_a D_b eps from the metric tensor *)
Theorem C105_gamma : forall coords (eqs : list poly) i k a b, i < List.length eqs -> In k coords -> In a coords -> In b coords ->
  exists v, gamma_subs coords i k a b = Ok v
    /\ forall (A : RAlg) (E : env A), statistics coords (List.length eqs) E ->
         pv E v = EE (jprod E (gamma_def i k a b))
         /\ pv E v = EE (dd k (e_fn E (FEps i)) * dd a (dd b (e_fn E (FEps i))))%ra.
Proof. exact main_gamma. Qed.

(** Burgers' equation after in_metric: degree 4; E[(D_xx eps)^2] is given by the metric and E[eps D_xxxx eps] *)
Example C105_example :
  let w := run same same same same same empty_world [NewPKF ["x"] burgers None; Ask 0 QInMetric] in
  degree_now w 0 0 = 4
  /\ exists d v, fst (read_tree same same same w 0) = Ok d /\ In ([(FEps 0, ["x"; "x"]); (FEps 0, ["x"; "x"])], v) d
     /\ exp_atoms v = [[(FEps 0, []); (FEps 0, ["x"; "x"; "x"; "x"])]].
Proof.
  cbv zeta. split; [vm_compute; reflexivity|]. do 2 eexists. split; [vm_compute; reflexivity|]. split.
  - vm_compute. repeat (first [left; reflexivity | right]).
  - vm_compute. reflexivity.
Qed.
Example C105_example_unshared :
  unshared same same same same same (snd (step same same same same same empty_world (NewPKF ["x"] burgers None))) 0 [Ask 0 QInMetric; SetClosure 0 []; Ask 0 QMetric].
Proof. repeat split; intros y H F; cbn in F; try exact F. destruct F as [F _]. congruence. Qed.
Example C105_example_gamma : exists v, gamma_subs ["x"; "y"] 0 "x" "y" "y" = Ok v
  /\ v = padd (pjet (FMet 0 0 1) ["y"]) (pscale (-1 # 2) (pjet (FMet 0 1 1) ["x"])).
Proof. eexists. split; vm_compute; reflexivity. Qed.

Print Assumptions C105_subs_tree.
Print Assumptions C105_silent.
Print Assumptions C105_grows.
Print Assumptions C105_history_refuted.
Print Assumptions C105_gamma.
