(** Properties C62, C63, C64: the class Closure. *)
From Coq Require Import List Arith ZArith Bool String Permutation Lia.
From Verif Require Import PyBase PartialOrderModel PartialOrderSpec NameModel ClosureModel ClosureSpec ClosureProofs ClosureMain.
Import ListNotations.
Open Scope string_scope.
Open Scope list_scope.
Open Scope Z_scope.

(** C62: a new object gives every term E[eps D^alpha eps] with |alpha| <= order, and no other, the
    value |alpha|! times the Taylor coefficient of the correlation. *)
Theorem C62_value : forall enum E ezero mulZ f coef s k, (forall l, Permutation (enum l) l) -> init E f = Ok s -> 0 <= k ->
  exists d, fst (closure enum E ezero mulZ f coef k s) = Ok d /\ has_terms mulZ (List.length (spatial_coordinates f)) coef (k + 1) d.
Proof. intros. eapply main_fresh; eauto. Qed.

(** C62: the derivative D^alpha of the correlation at dx = 0 is alpha! times its coefficient; *)
Theorem C62_derivative : forall E ezero mulZ alpha (c : list Z -> E), integer_module ezero mulZ -> (forall z, In z alpha -> 0 <= z) ->
  derivative_at_zero E mulZ alpha c = mulZ (mfactorial alpha) (c alpha).
Proof. intros E ezero mulZ alpha c M. exact (derivative_value ezero mulZ M alpha c). Qed.
(** so the value is right exactly when alpha differentiates one coordinate at most, or when the
    coefficient is null. *)
Theorem C62_right_iff : forall E ezero mulZ n alpha (c : list Z -> E), integer_module ezero mulZ ->
  multi_index n (fold_right Z.add 0 alpha) alpha ->
  (mulZ (factorial (fold_right Z.add 0 alpha)) (c alpha) = derivative_at_zero E mulZ alpha c <-> single alpha \/ c alpha = ezero).
Proof. intros E ezero mulZ n alpha c M. exact (value_right_iff ezero mulZ M n alpha c). Qed.

(** C62: the claim "closure(order) gives the derivatives of the correlation" fails in two dimensions *)
Theorem C62_mixed_refuted : exists f s (c : list Z -> Z) d, init Z f = Ok s /\ fst (closure (fun l => l) Z 0 Z.mul f c 2 s) = Ok d
  /\ exists alpha v, In (alpha, v) d /\ v <> derivative_at_zero Z Z.mul alpha c.
Proof.
  exists (mkFunc "u" ["t"; "x"; "y"] Plain), (mkState Z 0 None []), (fun _ => 1). eexists. split; [reflexivity|]. split; [vm_compute; reflexivity|].
  exists [1; 1], 2. split; [cbn; tauto|]. vm_compute. discriminate.
Qed.

(** C63: what closure(order) returns after a history of taylor and closure calls: the terms of degree
    lower than [filled], where only a closure call of an order never seen before fills. *)
Theorem C63_history : forall enum E ezero mulZ erase solve f coef s h k, (forall l, Permutation (enum l) l) -> init E f = Ok s -> Forall no_metric h ->
  exists d, fst (closure enum E ezero mulZ f coef k (run enum E ezero mulZ erase solve f coef h s)) = Ok d
  /\ has_terms mulZ (List.length (spatial_coordinates f)) coef (filled (h ++ [CClosure k])) d.
Proof. intros. eapply main_history; eauto. Qed.
(** C63: after closure calls only, no term is missing *)
Theorem C63_closures_complete : forall enum E ezero mulZ erase solve f coef s h k, (forall l, Permutation (enum l) l) -> init E f = Ok s ->
  Forall (fun x => exists k, x = CClosure k) h ->
  exists d, fst (closure enum E ezero mulZ f coef k (run enum E ezero mulZ erase solve f coef h s)) = Ok d
  /\ forall alpha p, multi_index (List.length (spatial_coordinates f)) p alpha -> p <= k -> In (alpha, mulZ (factorial p) (coef alpha)) d.
Proof. intros. eapply main_complete; eauto. Qed.
(** C63: after taylor(t), closures of lower order are empty *)
Theorem C63_taylor_empties : forall enum E ezero mulZ erase solve f coef s k t, (forall l, Permutation (enum l) l) -> init E f = Ok s -> k < t -> 0 < t ->
  fst (closure enum E ezero mulZ f coef k (run enum E ezero mulZ erase solve f coef [CTaylor t] s)) = Ok [].
Proof. intros. eapply main_taylor; eauto. Qed.

(** C63: so "closure(order) has the terms of degree at most order" is false: some are missing after
    taylor, some are too many after a closure of higher order *)
Theorem C63_missing_refuted : exists f s (c : list Z -> Z) t k, 0 <= k /\ init Z f = Ok s /\
  exists d, fst (closure (fun l => l) Z 0 Z.mul f c k (run (fun l => l) Z 0 Z.mul (fun e => e) (fun _ e => e) f c [CTaylor t] s)) = Ok d
  /\ ~ has_terms Z.mul 1 c (k + 1) d.
Proof.
  exists (mkFunc "u" ["t"; "x"] Plain), (mkState Z 0 None []), (fun _ => 1), 5, 2. split; [lia|]. split; [reflexivity|]. eexists. split; [vm_compute; reflexivity|].
  intros [_ H]. apply (proj2 (H [0] 1)). exists 0. split; [lia|]. split; [|reflexivity]. split; [reflexivity|]. split; [intros z [<-|[]]; lia|reflexivity].
Qed.
Theorem C63_extra_refuted : exists f s (c : list Z -> Z) h k, 0 <= k /\ init Z f = Ok s /\
  exists d, fst (closure (fun l => l) Z 0 Z.mul f c k (run (fun l => l) Z 0 Z.mul (fun e => e) (fun _ e => e) f c h s)) = Ok d
  /\ In ([3], 6) d /\ ~ has_terms Z.mul 1 c (k + 1) d.
Proof.
  exists (mkFunc "u" ["t"; "x"] Plain), (mkState Z 0 None []), (fun _ => 1), [CClosure 3], 1. split; [lia|]. split; [reflexivity|]. eexists. split; [vm_compute; reflexivity|].
  split; [cbn; tauto|]. intros [_ H]. destruct (proj1 (H [3] 6)) as (p & Hp & (_ & _ & E) & _); [cbn; tauto|]. cbn in E. lia.
Qed.

(** expressions a + b s' with a derivative s' *)
Definition pairs_mul (n : Z) (e : Z * Z) : Z * Z := (n * fst e, n * snd e).
(** C63: in_metric_by_order changes what closure answers afterwards *)
Theorem C63_metric_overwrites_refuted : exists f s (c : list Z -> Z * Z) erase solve k, 0 <= k /\ init (Z * Z) f = Ok s /\
  exists d d', fst (closure (fun l => l) (Z * Z) (0, 0) pairs_mul f c k s) = Ok d
  /\ fst (closure (fun l => l) (Z * Z) (0, 0) pairs_mul f c k (run (fun l => l) (Z * Z) (0, 0) pairs_mul erase solve f c [CMetric k] s)) = Ok d'
  /\ In ([2], (-2, 6)) d /\ In ([2], (-2, 0)) d' /\ ~ has_terms pairs_mul 1 c (k + 1) d'.
Proof.
  exists (mkFunc "u" ["t"; "x"] Plain), (mkState (Z * Z) 0 None []), (fun a => match a with [0] => (1, 0) | [1] => (0, 0) | _ => (-1, 3) end),
    (fun e => (fst e, 0)), (fun _ e => e), 2. split; [lia|]. split; [reflexivity|]. do 2 eexists. split; [vm_compute; reflexivity|]. split; [vm_compute; reflexivity|].
  split; [cbn; tauto|]. split; [cbn; tauto|]. intros [_ H]. destruct (proj1 (H [2] (-2, 0))) as (p & _ & (_ & _ & E) & V); [cbn; tauto|]. cbn in E. subst p. vm_compute in V. discriminate.
Qed.

(** C64: in_metric_by_order needs the terms of second order; *)
Theorem C64_key_error : forall enum E ezero mulZ erase solve f coef s h k, (forall l, Permutation (enum l) l) -> init E f = Ok s -> Forall no_metric h ->
  filled (h ++ [CClosure k]) <= 2 ->
  fst (in_metric_by_order enum E ezero mulZ erase solve f coef k (run enum E ezero mulZ erase solve f coef h s)) = Err KeyError.
Proof. intros. eapply main_key_error; eauto. Qed.
(** it always raises IndexError in two dimensions; *)
Theorem C64_two_dimensions : forall enum E ezero mulZ erase solve f coef s h k, (forall l, Permutation (enum l) l) -> init E f = Ok s -> Forall no_metric h ->
  2 < filled (h ++ [CClosure k]) -> List.length (spatial_coordinates f) = 2%nat ->
  fst (in_metric_by_order enum E ezero mulZ erase solve f coef k (run enum E ezero mulZ erase solve f coef h s)) = Err IndexError.
Proof. intros. eapply main_two_dimensions; eauto. Qed.
(** in the other dimensions it writes one equation for each second-order term and applies the solution
    to every value; *)
Theorem C64_other_dimensions : forall enum E ezero mulZ erase solve f coef s h k, (forall l, Permutation (enum l) l) -> init E f = Ok s -> Forall no_metric h ->
  let n := List.length (spatial_coordinates f) in
  2 < filled (h ++ [CClosure k]) -> n <> 2%nat ->
  exists qs o, fst (in_metric_by_order enum E ezero mulZ erase solve f coef k (run enum E ezero mulZ erase solve f coef h s)) = Ok o
  /\ (forall q, In q qs <-> exists alpha, multi_index n 2 alpha /\ written f (fun a => erase (mulZ 2 (coef a))) alpha q)
  /\ forall p alpha, multi_index n p alpha -> p < filled (h ++ [CClosure k]) ->
     exists d, dget Z.eq_dec p o = Some d
     /\ dget ztuple_dec alpha d = Some (solve qs (if p =? 2 then erase (mulZ 2 (coef alpha)) else mulZ (factorial p) (coef alpha))).
Proof. intros. eapply main_other_dimensions; eauto. Qed.
(** and from three dimensions on the equations of D_x0 D_x0 and D_x1 D_x1 bear the same metric entry,
    that of D_x0 D_x2: the claim "the equation of D_xi D_xi bears g_ii" is false. *)
Theorem C64_labels : forall f E (val : list Z -> E) q q', (2 < List.length (spatial_coordinates f))%nat ->
  written f val (twice (List.length (spatial_coordinates f)) 0) q -> written f val (twice (List.length (spatial_coordinates f)) 1) q' ->
  fst q = fst q' /\ metric_func f 0 2 = Ok (fst (fst q)).
Proof. intros f E val q q'. exact (main_labels E f val q q'). Qed.

Example C62_example : exists d, fst (closure (fun l => l) Z 0 Z.mul (mkFunc "u" ["t"; "x"; "y"] Plain) (fun a => 10 * nth 0 a 0 + nth 1 a 0 + 1) 2 (mkState Z 0 None [])) = Ok d
  /\ d = [([0; 0], 1); ([1; 0], 11); ([0; 1], 2); ([2; 0], 42); ([1; 1], 24); ([0; 2], 6)].
Proof. eexists. split; vm_compute; reflexivity. Qed.
Example C62_example_module : integer_module 0 Z.mul.
Proof. constructor; intros; nia. Qed.
Example C62_example_right : derivative_at_zero Z Z.mul [3; 0] (fun _ => 7) = 42 /\ derivative_at_zero Z Z.mul [2; 1] (fun _ => 7) = 14 /\ factorial 3 * 7 = 42.
Proof. repeat split; reflexivity. Qed.
Example C63_example : filled [CTaylor 2; CClosure 3; CTaylor 6; CClosure 4] = 4 /\ filled [CClosure 1; CClosure 3; CClosure 2] = 4.
Proof. split; reflexivity. Qed.
Example C64_example : let f := mkFunc "u" ["t"; "x"; "y"] Plain in
  fst (in_metric_by_order (fun l => l) Z 0 Z.mul (fun e => e) (fun _ e => e) f (fun _ => 1) 4 (mkState Z 0 None [])) = Err IndexError
  /\ fst (in_metric_by_order (fun l => l) Z 0 Z.mul (fun e => e) (fun _ e => e) f (fun _ => 1) 1 (mkState Z 0 None [])) = Err KeyError.
Proof. split; vm_compute; reflexivity. Qed.
(** in one dimension the equation is -g_xx = value; here the solution multiplies by 5 *)
Example C64_example_one : let f := mkFunc "u" ["t"; "x"] Plain in
  fst (in_metric_by_order (fun l => l) Z 0 Z.mul (fun e => e)
         (fun qs e => match qs with [(g, s, v)] => if String.eqb (f_name g) "{g_{u,xx}}" && (v =? 2) then 5 * e else 0 | _ => 0 end) f (fun _ => 1) 3 (mkState Z 0 None []))
  = Ok [(0, [([0], 5)]); (1, [([1], 5)]); (2, [([2], 10)]); (3, [([3], 30)])].
Proof. vm_compute. reflexivity. Qed.
Example C64_example_labels : let f := mkFunc "u" ["t"; "x"; "y"; "z"] Plain in
  exists q q', written f (fun a => a) (twice 3 0) q /\ written f (fun a => a) (twice 3 1) q' /\ f_name (fst (fst q)) = "{g_{u,xz}}" /\ fst q = fst q'.
Proof.
  intros f. exists (mkFunc "{g_{u,xz}}" ["t"; "x"; "y"; "z"] Real, mkFunc "{s_{u,xz}}" ["t"; "x"; "y"; "z"] Real, [2; 0; 0]),
   (mkFunc "{g_{u,xz}}" ["t"; "x"; "y"; "z"] Real, mkFunc "{s_{u,xz}}" ["t"; "x"; "y"; "z"] Real, [0; 2; 0]). repeat split.
Qed.

Print Assumptions C62_value.
Print Assumptions C62_derivative.
Print Assumptions C62_right_iff.
Print Assumptions C62_mixed_refuted.
Print Assumptions C63_history.
Print Assumptions C63_closures_complete.
Print Assumptions C63_taylor_empties.
Print Assumptions C63_missing_refuted.
Print Assumptions C63_extra_refuted.
Print Assumptions C63_metric_overwrites_refuted.
Print Assumptions C64_key_error.
Print Assumptions C64_two_dimensions.
Print Assumptions C64_other_dimensions.
Print Assumptions C64_labels.
