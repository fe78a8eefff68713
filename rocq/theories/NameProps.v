(** Properties C60, C61: names of the functions attached to the fields. *)
From Coq Require Import List Arith Bool String.
From Verif Require Import PyBase StrModel NameModel NameSpec NameProofs.
Import ListNotations.
Open Scope string_scope.
Open Scope list_scope.
Open Scope nat_scope.

Definition u : func := mkFunc "u" ["t"; "x"; "y"] Plain.
Definition v : func := mkFunc "v" ["t"; "x"; "y"] Plain.
Definition h : func := mkFunc "h" ["t"; "x"; "y"] Plain.

(** C60: what get_covariance returns and raises *)
Theorem C60_value : forall fields f g, In f fields -> In g fields -> f_args f = f_args g ->
  get_covariance fields f g = Ok (mkFunc ("V_" ++ f_name f ++ f_name g) (f_args f) Plain).
Proof. exact covariance_value. Qed.

Theorem C60_errors : forall fields f g,
  (get_covariance fields f g = Err ValueError <-> ~ (In f fields /\ In g fields))
  /\ (get_covariance fields f g = Err AssertionError <-> In f fields /\ In g fields /\ f_args f <> f_args g).
Proof. exact covariance_cases. Qed.

(** C60: get_covariance(f,g) and get_covariance(g,f) are different functions when no field name
    begins another one (in particular for names of the same length) *)
Theorem C60_asymmetric : forall fields i j f g a b, prefix_free (map f_name fields) ->
  nth_error fields i = Some f -> nth_error fields j = Some g -> i <> j ->
  get_covariance fields f g = Ok a -> get_covariance fields g f = Ok b -> a <> b.
Proof. exact covariance_asymmetric. Qed.

(** C60: two pairs of fields with one covariance *)
Theorem C60_unique_refuted : exists fields f g f' g' c, NoDup (map code fields) /\ In f fields /\ In g fields /\ In f' fields /\ In g' fields
  /\ (f, g) <> (f', g') /\ get_covariance fields f g = Ok c /\ get_covariance fields f' g' = Ok c.
Proof.
  exists (map (fun n => mkFunc n ["t"; "x"] Plain) ["a"; "ab"; "bc"; "c"]), (mkFunc "a" ["t"; "x"] Plain), (mkFunc "bc" ["t"; "x"] Plain),
    (mkFunc "ab" ["t"; "x"] Plain), (mkFunc "c" ["t"; "x"] Plain), (mkFunc "V_abc" ["t"; "x"] Plain).
  split; [|cbn; repeat split; auto; discriminate].
  vm_compute. repeat constructor; intros H; repeat (destruct H as [H|H]; [discriminate|]); exact H.
Qed.
(** C60: a covariance that is one of the fields *)
Theorem C60_field_refuted : exists fields f g, NoDup (map code fields) /\ In f fields /\ In g fields
  /\ exists c, get_covariance fields f g = Ok c /\ In c fields.
Proof.
  exists [u; v; mkFunc "V_uv" ["t"; "x"; "y"] Plain], u, v.
  split; [|split; [cbn; auto|split; [cbn; auto|eexists; split; [reflexivity|cbn; auto]]]].
  vm_compute. repeat constructor; intros H; repeat (destruct H as [H|H]; [discriminate|]); exact H.
Qed.

(** C61: the entries are symmetric, so the tensors are symmetric matrices, defined for every field *)
Theorem C61_symmetric : forall f i j, metric_func f i j = metric_func f j i /\ nu_func f i j = nu_func f j i /\ aspect_func f i j = aspect_func f j i.
Proof. intros f i j. exact (conj (metric_func_sym f i j) (conj (nu_func_sym f i j) (aspect_func_sym f i j))). Qed.
Theorem C61_tensors : forall f, exists g n s, metric f = Ok g /\ diffusion f = Ok n /\ aspect f = Ok s /\
  forall m, In m [g; n; s] -> forall i j, i < List.length (spatial_coordinates f) -> j < List.length (spatial_coordinates f) ->
  exists r r' e, nth_error m i = Some r /\ nth_error r j = Some e /\ nth_error m j = Some r' /\ nth_error r' i = Some e.
Proof. exact tensors_symmetric. Qed.
Theorem C61_index_error : forall f i j, List.length (spatial_coordinates f) <= i \/ List.length (spatial_coordinates f) <= j ->
  metric_func f i j = Err IndexError /\ nu_func f i j = Err IndexError /\ aspect_func f i j = Err IndexError.
Proof. exact entry_index_error. Qed.

(** C61: every quantity of a system (fields, random fields, errors, variances, tensor entries,
    covariances) has a symbol, and different quantities have different symbols, when the cleaned
    field names are distinct, when no field name begins another one and no cleaned coordinate name
    begins another one, and when no field name begins with { or V_. *)
Theorem C61_distinct : forall args fields, let coords := filter (fun c => negb (String.eqb c "t")) args in
  (forall f, In f fields -> f_args f = args) -> (forall f, In f fields -> user_name (f_name f)) ->
  NoDup (map code fields) -> prefix_free (map f_name fields) -> prefix_free (map clean_latex_name coords) ->
  (forall q, exists_in (List.length fields) (List.length coords) q -> exists g, symbol_of fields q g)
  /\ forall q q' g, exists_in (List.length fields) (List.length coords) q -> exists_in (List.length fields) (List.length coords) q' ->
     symbol_of fields q g -> symbol_of fields q' g -> q = q'.
Proof.
  intros args fields coords Ha Hu Hc Hn Hk. split; [exact (symbol_exists args fields Ha)|].
  intros q q' g. exact (distinct_symbols args fields Ha Hu Hc Hn Hk _ _ q q' g).
Qed.
(** C61: the random field and the two errors are functions of omega besides the arguments of the fields, the others are not;
    the variance and the standard deviation are positive, the entries of the tensors real, nothing is assumed of the rest *)
Theorem C61_kinds : forall args fields, (forall f, In f fields -> f_args f = args /\ f_assume f = Plain) ->
  forall q g, symbol_of fields q g ->
  f_args g = args ++ (if depends_on_omega q then ["omega"] else []) /\
  f_assume g = (if is_positive q then Positive else if is_entry q then Real else Plain).
Proof. exact symbol_kind. Qed.
Example C61_kinds_ex : (forall f, In f [h; u; v] -> f_args f = ["t"; "x"; "y"] /\ f_assume f = Plain) /\ symbol_of [h; u; v] (Epsilon 1) (epsilon u).
Proof. split; [intros f [<-|[<-|[<-|[]]]]; split; reflexivity|exists u; split; reflexivity]. Qed.
(** names of the same length are a particular case *)
Theorem C61_same_lengths : forall l, same_lengths l -> NoDup l -> prefix_free l.
Proof. exact same_lengths_prefix_free. Qed.

(** C61: in general not: coordinates x, xx, xxx *)
Theorem C61_distinct_refuted : exists f a b a' b' g, NoDup (spatial_coordinates f) /\ a <= b /\ a' <= b' /\ (a, b) <> (a', b')
  /\ metric_func f a b = Ok g /\ metric_func f a' b' = Ok g.
Proof.
  exists (mkFunc "u" ["t"; "x"; "xx"; "xxx"] Plain), 0, 2, 1, 1. eexists.
  split; [|repeat split; auto; discriminate].
  vm_compute. repeat constructor; intros H; repeat (destruct H as [H|H]; [discriminate|]); exact H.
Qed.
(** C61: two fields with all their statistics in common, when their cleaned names agree *)
Theorem C61_fields_refuted : exists f g, f <> g /\ variance f = variance g /\ error f = error g /\ epsilon f = epsilon g /\ metric f = metric g.
Proof. exists (mkFunc "u_1" ["t"; "x"] Plain), (mkFunc "u_{1}" ["t"; "x"] Plain). split; [discriminate|]. repeat split. Qed.

Example C61_example : let fields := [h; u; v] in
  (forall q, exists_in 3 2 q -> exists g, symbol_of fields q g)
  /\ (forall q q' g, exists_in 3 2 q -> exists_in 3 2 q' -> symbol_of fields q g -> symbol_of fields q' g -> q = q')
  /\ symbol_of fields (Metric 1 0 1) (mkFunc "{g_{u,xy}}" ["t"; "x"; "y"] Real)
  /\ symbol_of fields (Covariance 0 2) (mkFunc "V_hv" ["t"; "x"; "y"] Plain).
Proof.
  intros fields. destruct (C61_distinct ["t"; "x"; "y"] fields) as [E D].
  - intros f [<-|[<-|[<-|[]]]]; reflexivity.
  - intros f [<-|[<-|[<-|[]]]]; split; intros r H; discriminate H.
  - vm_compute. repeat constructor; intros H; repeat (destruct H as [H|H]; [discriminate|]); exact H.
  - apply C61_same_lengths; [intros a b [<-|[<-|[<-|[]]]] [<-|[<-|[<-|[]]]]; reflexivity|].
    vm_compute. repeat constructor; intros H; repeat (destruct H as [H|H]; [discriminate|]); exact H.
  - apply C61_same_lengths; [intros a b [<-|[<-|[]]] [<-|[<-|[]]]; reflexivity|].
    vm_compute. repeat constructor; intros H; repeat (destruct H as [H|H]; [discriminate|]); exact H.
  - split; [exact E|]. split; [exact D|]. split; [exists u; split; reflexivity|exists h, v; repeat split].
Qed.
Example C60_example : get_covariance [h; u; v] u v = Ok (mkFunc "V_uv" ["t"; "x"; "y"] Plain)
  /\ get_covariance [h; u; v] v u = Ok (mkFunc "V_vu" ["t"; "x"; "y"] Plain)
  /\ get_covariance [h; u] u v = Err ValueError
  /\ get_covariance [u; mkFunc "s" ["t"; "x"] Plain] u (mkFunc "s" ["t"; "x"] Plain) = Err AssertionError.
Proof. repeat split. Qed.

Print Assumptions C60_value.
Print Assumptions C60_errors.
Print Assumptions C60_asymmetric.
Print Assumptions C60_unique_refuted.
Print Assumptions C60_field_refuted.
Print Assumptions C61_symmetric.
Print Assumptions C61_tensors.
Print Assumptions C61_index_error.
Print Assumptions C61_distinct.
Print Assumptions C61_kinds.
Print Assumptions C61_same_lengths.
Print Assumptions C61_distinct_refuted.
Print Assumptions C61_fields_refuted.
