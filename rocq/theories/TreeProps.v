(** Properties C36-C41: partial orders and the substitution tree. *)
From Coq Require Import List Arith ZArith QArith Qcanon Bool String Permutation.
From Verif Require Import PyBase PartialOrderModel PartialOrderSpec PartialOrderProofs
  TreeModel TreeSpec TreeProofs Reynolds ReynoldsInst TreeMore.
Import ListNotations.
Close Scope Q_scope.
Close Scope Qc_scope.
Open Scope nat_scope.
Open Scope list_scope.
Open Scope string_scope.

(** C36: the three descriptions are interchangeable *)
Theorem C36_formats_describe : forall coords v o, NoDup coords ->
  (pod_init coords v = Ok (mkPod coords o) <-> describes coords v o).
Proof. exact pod_init_iff. Qed.

Theorem C36_invalid_type_error : forall coords v, NoDup coords ->
  (forall o, ~ describes coords v o) -> pod_init coords v = Err TypeError.
Proof. exact pod_init_error. Qed.

Theorem C36_round_trips : forall p, NoDup (p_coords p) -> List.length (p_tuple p) = List.length (p_coords p) ->
  (forall z, In z (p_tuple p) -> (0 <= z)%Z) ->
  pod_new p (tuple_value p) = Ok p /\ pod_new p (couples_value p) = Ok p /\ pod_new p (sequence_value p) = Ok p.
Proof. exact round_trips. Qed.

Theorem C36_negative_orders_lost_by_sequence : forall coords o, NoDup coords -> List.length o = List.length coords ->
  (exists z, In z o /\ (z < 0)%Z) ->
  exists q, pod_new (mkPod coords o) (sequence_value (mkPod coords o)) = Ok q /\ q <> mkPod coords o.
Proof. exact negative_lost. Qed.

Theorem C36_equality : forall p q, pod_eqb p q = true <-> p = q.
Proof. exact pod_eqb_true. Qed.

Example C36_example :
  pod_init ["x"; "y"] (VList [VTuple [VCoord "y"; VInt 2]; VTuple [VCoord "x"; VInt 1]; VTuple [VCoord "y"; VInt 1]])
  = Ok (mkPod ["x"; "y"] [1; 3]%Z)
  /\ pod_init ["x"; "y"] (VTuple [VCoord "y"; VInt 2]) = Ok (mkPod ["x"; "y"] [0; 2]%Z)
  /\ pod_init ["x"; "y"] (VTuple [VCoord "y"; VCoord "y"]) = Ok (mkPod ["x"; "y"] [0; 2]%Z)
  /\ sequence_value (mkPod ["x"; "y"] [1; 3]%Z) = VList [VCoord "x"; VCoord "y"; VCoord "y"; VCoord "y"]
  /\ pod_init ["x"; "y"] (VList [VInt 1; VInt 3]) = Err TypeError.
Proof. repeat split. Qed.

(** C37: all multi-indices of a degree, once each *)
Theorem C37_all_of_degree : forall enum coords order, (forall l, Permutation (enum l) l) -> coords <> [] ->
  exists l, all_of_degree enum coords order = Ok (map (mkPod coords) l) /\ NoDup l
    /\ forall o, In o l <-> multi_index (List.length coords) order o.
Proof. intros enum coords order H. exact (all_of_degree_spec enum H coords order). Qed.

Theorem C37_no_coordinate : forall enum order, all_of_degree enum [] order = Err IndexError.
Proof. reflexivity. Qed.

Example C37_example : all_of_degree (fun l => l) ["x"; "y"] 2 =
  Ok [mkPod ["x"; "y"] [2; 0]%Z; mkPod ["x"; "y"] [1; 1]%Z; mkPod ["x"; "y"] [0; 2]%Z].
Proof. reflexivity. Qed.

(** C38: the rules are identities, whatever was asked of the object before *)
Theorem C38_rules_are_identities : forall enum enumD ss coords,
  (forall l, Permutation (enum l) l) -> (forall l, Permutation (enumD l) l) -> NoDup coords -> coords <> [] ->
  forall calls d rules,
    fst (tree_call enum enumD ss coords (tree_calls enum enumD ss coords tree_init calls) d) = Ok rules ->
  forall (A : RAlg) (eps : A) a b v, In ((a, b), v) rules ->
    expr_value coords eps v = moment coords eps a b.
Proof. exact rules_are_identities. Qed.

(** the wave eps of ReynoldsInst: E[eps_x eps_x] = 1, E[eps eps_xx] = -1 *)
Example C38_example : exists rules,
  fst (tree_call (fun l => l) (fun l => l) true ["x"] tree_init (Some 2)) = Ok rules
  /\ In (([1], [1])%Z, [(1%Z, ["x"], ([0], [1])%Z); ((-1)%Z, [], ([0], [2])%Z)]) rules
  /\ (moment (A := wave (fun _ => 1%Qc)) ["x"] eps_wave [1%Z] [1%Z] : ev -> nat -> Qc) (true, true) 0 = 1%Qc.
Proof. exact c38_example. Qed.

(** C39: a rule for every pair of non-zero indices up to the degree, and for nothing else *)
Theorem C39_complete : forall enum enumD ss coords,
  (forall l, Permutation (enum l) l) -> (forall l, Permutation (enumD l) l) -> NoDup coords -> coords <> [] ->
  forall calls degree, exists rules,
    fst (tree_call enum enumD ss coords (tree_calls enum enumD ss coords tree_init calls) (Some degree)) = Ok rules
  /\ forall a b x y, nz_index (List.length coords) x a -> nz_index (List.length coords) y b -> x + y <= degree ->
       exists v, In ((a, b), v) rules \/ In ((b, a), v) rules.
Proof. exact complete. Qed.

Theorem C39_only_pairs : forall enum enumD ss coords,
  (forall l, Permutation (enum l) l) -> (forall l, Permutation (enumD l) l) -> NoDup coords -> coords <> [] ->
  forall calls degree rules,
    fst (tree_call enum enumD ss coords (tree_calls enum enumD ss coords tree_init calls) (Some degree)) = Ok rules ->
  forall a b v, In ((a, b), v) rules ->
    exists x y, nz_index (List.length coords) x a /\ nz_index (List.length coords) y b /\ x + y <= degree.
Proof. exact only_pairs. Qed.

Example C39_example : exists rules,
  fst (tree_call (fun l => l) (fun l => l) true ["x"; "y"] tree_init (Some 4)) = Ok rules
  /\ List.length rules = 23.
Proof. eexists. split; [vm_compute; reflexivity|reflexivity]. Qed.

(** C40: right-hand sides are sums of derivatives of terms E[eps D^c eps], of the same
    total degree, to which no rule applies *)
Theorem C40_normal_forms : forall enum enumD coords,
  (forall l, Permutation (enum l) l) -> (forall l, Permutation (enumD l) l) -> NoDup coords -> coords <> [] ->
  forall calls d rules,
    fst (tree_call enum enumD true coords (tree_calls enum enumD true coords tree_init calls) d) = Ok rules ->
  forall a b v c ds g h, In ((a, b), v) rules -> In (c, ds, (g, h)) v ->
    (g = zero_index (List.length coords) \/ h = zero_index (List.length coords))
    /\ (forall v', ~ In ((g, h), v') rules)
    /\ (Z.of_nat (List.length ds) + fold_right Z.add 0 g + fold_right Z.add 0 h
        = fold_right Z.add 0 a + fold_right Z.add 0 b)%Z.
Proof. exact normal_forms. Qed.

(** without self-substitution the right-hand sides are not normal forms *)
Theorem C40_not_without_self_substitution_refuted : exists coords d rules,
    fst (tree_call (fun l => l) (fun l => l) false coords tree_init (Some d)) = Ok rules
    /\ exists k v c ds k' v', In (k, v) rules /\ In (c, ds, k') v /\ In (k', v') rules.
Proof. exact not_without. Qed.

(** C41: no dependence on the history *)
Theorem C41_history_independent : forall enum enumD ss coords,
  (forall l, Permutation (enum l) l) -> (forall l, Permutation (enumD l) l) -> NoDup coords -> coords <> [] ->
  forall calls degree,
    fst (tree_call enum enumD ss coords (tree_calls enum enumD ss coords tree_init calls) (Some degree))
    = fst (tree_call enum enumD ss coords tree_init (Some degree)).
Proof. exact history_independent. Qed.

Theorem C41_default_degree : forall enum enumD ss coords,
  (forall l, Permutation (enum l) l) -> (forall l, Permutation (enumD l) l) -> NoDup coords -> coords <> [] ->
  forall calls,
    fst (tree_call enum enumD ss coords (tree_calls enum enumD ss coords tree_init calls) None)
    = fst (tree_call enum enumD ss coords tree_init
             (Some (fold_right Nat.max 0 (map (fun c => match c with None => 0 | Some d => d end) calls)))).
Proof. exact default_degree. Qed.

(** with no spatial coordinate the same request fails, then succeeds with no rule *)
Theorem C41_history_without_coordinates_refuted :
  let st := tree_calls (fun l => l) (fun l => l) true [] tree_init [Some 2] in
  fst (tree_call (fun l => l) (fun l => l) true [] tree_init (Some 2)) = Err IndexError
  /\ fst (tree_call (fun l => l) (fun l => l) true [] st (Some 2)) = Ok [].
Proof. split; reflexivity. Qed.

Print Assumptions C36_formats_describe.
Print Assumptions C36_round_trips.
Print Assumptions C37_all_of_degree.
Print Assumptions C38_rules_are_identities.
Print Assumptions C39_complete.
Print Assumptions C39_only_pairs.
Print Assumptions C40_normal_forms.
Print Assumptions C41_history_independent.
Print Assumptions C41_default_degree.
Print Assumptions C36_invalid_type_error.
Print Assumptions C36_negative_orders_lost_by_sequence.
Print Assumptions C36_equality.
Print Assumptions C37_no_coordinate.
Print Assumptions C40_not_without_self_substitution_refuted.
Print Assumptions C41_history_without_coordinates_refuted.
