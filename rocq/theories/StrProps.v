(** Properties of the generated text: C32-C35, C76, C82, C83. *)
From Coq Require Import List Arith ZArith QArith Bool Ascii String Lia Permutation.
From Verif Require Import PyBase PyBaseFacts StrModel StrSpec StrProofs StrMore Scalars GridModel GridSpec GridProofs GridMore.
Import ListNotations.
Close Scope Q_scope.
Open Scope string_scope.
Open Scope list_scope.
Open Scope nat_scope.

(** C32 *)
Theorem C32_characterwise : forall s, clean_latex_name s = norm s.
Proof. exact clean_norm. Qed.
Print Assumptions C32_characterwise.

Theorem C32_result_clean : forall s c, In c (chars (clean_latex_name s)) ->
  ~ In c [ascii_of_nat 92; "{"%char; "}"%char; "^"%char; ","%char].
Proof. intros s c. rewrite clean_norm. apply norm_special. Qed.
Print Assumptions C32_result_clean.

Theorem C32_idempotent : forall s, clean_latex_name (clean_latex_name s) = clean_latex_name s.
Proof. intros s. rewrite (clean_norm (clean_latex_name s)). apply norm_fix. intros c. rewrite clean_norm. apply norm_special. Qed.
Print Assumptions C32_idempotent.

Theorem C32_identity_on_plain_names : forall s,
  clean_latex_name s = s <-> (forall c, In c (chars s) -> ~ In c [ascii_of_nat 92; "{"%char; "}"%char; "^"%char; ","%char]).
Proof.
  intros s. split.
  - intros H c. rewrite <- H, clean_norm. apply norm_special.
  - intros H. rewrite clean_norm. apply norm_fix. auto.
Qed.
Print Assumptions C32_identity_on_plain_names.

Theorem C32_compositional : forall a b,
  clean_latex_name (a ++ b) = (clean_latex_name a ++ clean_latex_name b)%string.
Proof. intros a b. rewrite !clean_norm. unfold norm. rewrite chars_app, flat_map_app, of_chars_app. reflexivity. Qed.
Print Assumptions C32_compositional.

Theorem C32_injective_refuted : exists a b, a <> b /\ clean_latex_name a = clean_latex_name b.
Proof. exists "V_{u,x}", "V_{u}^x". split; [discriminate|reflexivity]. Qed.
Print Assumptions C32_injective_refuted.

Example C32_example : clean_latex_name (backslash ++ "sigma_{u,x}^2") = "sigma_u_x_2".
Proof. reflexivity. Qed.

(** C33 *)
Theorem C33_spacings_replaced : forall loc ts,
  NoDup loc -> Forall ident loc -> wf_tokens ts ->
  (forall c s, In c loc -> In (Id s) ts -> infix ("d" ++ c) s -> s = ("d" ++ c)%string) ->
  (forall l1 c l2 c' w, loc = l1 ++ c :: l2 -> In (Id ("d" ++ c)%string) ts -> In c' l2 ->
     In w ["self"; "dx"; "coordinates"; "index"; c] -> ~ infix ("d" ++ c') w) ->
  replace_spacings fd_dx_rule loc (text ts) = subst_tokens loc fd_dx_rule ts.
Proof.
  intros loc ts ND Hid Hw Hi Hs. apply replace_spacings_tokens; auto.
Qed.
Print Assumptions C33_spacings_replaced.

(** the usual case: coordinates t, x, y and the mixed second difference *)
Example C33_example :
  replace_spacings fd_dx_rule ["t"; "x"; "y"] "u[np.ix_(self.index('x',1),self.index('y',0))]/(2*dx*dy**2)"
  = "u[np.ix_(self.index('x',1),self.index('y',0))]/(2*self.dx[self.coordinates.index('x')]*self.dx[self.coordinates.index('y')]**2)".
Proof. reflexivity. Qed.
Example C33_example_hypotheses :
  let loc := ["t"; "x"; "y"] in
  let ts := [Id "u"; Sep "/"; Sep "("; Id "dx"; Sep "*"; Id "dy"; Sep ")"] in
  text ts = "u/(dx*dy)" /\ NoDup loc /\ Forall ident loc /\ wf_tokens ts
  /\ (forall c s, In c loc -> In (Id s) ts -> infix ("d" ++ c) s -> s = ("d" ++ c)%string)
  /\ (forall l1 c l2 c' w, loc = l1 ++ c :: l2 -> In (Id ("d" ++ c)%string) ts -> In c' l2 ->
     In w ["self"; "dx"; "coordinates"; "index"; c] -> ~ infix ("d" ++ c') w).
Proof.
  cbv zeta. split; [reflexivity|]. split; [repeat constructor; simpl; intuition discriminate|].
  split; [repeat constructor; apply ident_b; reflexivity|].
  split; [cbn [wf_tokens]; repeat (split; [first [apply ident_b; reflexivity|reflexivity|exact Logic.I]|]); exact Logic.I|].
  split.
  - intros c s Hc Hs Hin. simpl in Hc, Hs.
    repeat (destruct Hs as [Hs|Hs]; [try discriminate; inversion Hs; subst s;
      repeat (destruct Hc as [<-|Hc]; [first [reflexivity|exfalso; revert Hin; apply not_infix_b; reflexivity]|]); destruct Hc|]). destruct Hs.
  - intros l1 c l2 c' w E Hd Hc Hw.
    assert (P : c = "x" /\ c' = "y").
    { assert (Nt : c <> "t") by (intros ->; simpl in Hd; intuition discriminate). clear Hd. destruct l1 as [|a1 [|a2 [|a3 l1]]]; simpl in E; inversion E; subst; simpl in Hc; intuition; try (destruct l1; discriminate). }
    simpl in Hw. destruct P as [-> ->];
      repeat (destruct Hw as [<-|Hw]; [apply not_infix_b; reflexivity|]); destruct Hw.
Qed.

(** each of the hypotheses matters *)
Theorem C33_prefix_names_refuted :
  exists loc ts, NoDup loc /\ Forall ident loc /\ wf_tokens ts
    /\ replace_spacings fd_dx_rule loc (text ts) <> subst_tokens loc fd_dx_rule ts.
Proof.
  exists ["t"; "x"; "xi"], [Id "u"; Sep "/"; Id "dxi"].
  split; [repeat constructor; simpl; intuition discriminate|].
  split; [repeat constructor; apply ident_b; reflexivity|].
  split; [cbn [wf_tokens]; repeat (split; [first [apply ident_b; reflexivity|reflexivity|exact Logic.I]|]); exact Logic.I|].
  vm_compute. discriminate.
Qed.
Print Assumptions C33_prefix_names_refuted.

(** a field whose name contains dt *)
Theorem C33_field_name_refuted :
  exists ts, wf_tokens ts /\ replace_spacings fd_dx_rule ["t"; "x"] (text ts) <> subst_tokens ["t"; "x"] fd_dx_rule ts.
Proof.
  exists [Id "width"; Sep "/"; Id "dx"].
  split; [cbn [wf_tokens]; repeat (split; [first [apply ident_b; reflexivity|reflexivity|exact Logic.I]|]); exact Logic.I|].
  vm_compute. discriminate.
Qed.
Print Assumptions C33_field_name_refuted.

(** C34 *)
Theorem C34_coordinates_recovered :
  forall xi, xi <> "" -> (forall r, xi <> String "d" r) ->
  (forall atoms, Permutation atoms [xi; ("d" ++ xi)%string] -> arg_coordinate atoms = Ok (xi, ("d" ++ xi)%string))
  /\ arg_coordinate [xi] = Ok (xi, ("d" ++ xi)%string).
Proof.
  intros xi N D. split; [|reflexivity]. intros atoms P. apply Permutation_sym, Permutation_length_2_inv in P.
  destruct xi as [|c r]; [congruence|].
  destruct P as [->| ->]; unfold arg_coordinate.
  - destruct (ascii_dec c "d") as [->|]; [exfalso; apply (D r); auto|reflexivity].
  - cbn [append]. destruct (ascii_dec "d" "d"); [reflexivity|congruence].
Qed.
Print Assumptions C34_coordinates_recovered.

Theorem C34_all_arguments :
  forall xs args, Forall2 (fun xi atoms => xi <> "" /\ (forall r, xi <> String "d" r)
       /\ (atoms = [xi] \/ Permutation atoms [xi; ("d" ++ xi)%string])) xs args ->
  get_function_coordinates args = Ok (xs, map (fun xi => ("d" ++ xi)%string) xs).
Proof.
  intros xs args H. unfold get_function_coordinates.
  assert (E : mapM arg_coordinate args = Ok (map (fun xi => (xi, ("d" ++ xi)%string)) xs)).
  { induction H as [|xi atoms xs args (N & D & P) _ IH]; [reflexivity|]. cbn [mapM map].
    destruct (C34_coordinates_recovered xi N D) as [A B]. destruct P as [->|P]; [rewrite B|rewrite (A _ P)];
      cbn [bind]; rewrite IH; reflexivity. }
  rewrite E. cbn [bind]. rewrite !map_map. cbn [fst snd]. rewrite map_id. reflexivity.
Qed.
Print Assumptions C34_all_arguments.

Theorem C34_order_dependent_names :
  forall r, let xi := String "d" r in
  arg_coordinate [xi; ("d" ++ xi)%string] = Ok (("d" ++ xi)%string, xi)
  /\ arg_coordinate [("d" ++ xi)%string; xi] = Ok (xi, ("d" ++ xi)%string).
Proof. intros r xi. unfold xi, arg_coordinate. cbn [append]. destruct (ascii_dec "d" "d"); [auto|congruence]. Qed.
Print Assumptions C34_order_dependent_names.

Theorem C34_order_independence_refuted :
  exists a b, Permutation a b /\ arg_coordinate a <> arg_coordinate b.
Proof.
  exists ["depth"; "ddepth"], ["ddepth"; "depth"]. split; [apply perm_swap|]. vm_compute. discriminate.
Qed.
Print Assumptions C34_order_independence_refuted.

Theorem C34_wrong_number_of_symbols :
  forall atoms, List.length atoms = 0 \/ 2 < List.length atoms -> arg_coordinate atoms = Err ValueError.
Proof. intros [|a [|b [|c l]]]; simpl; intros H; auto; lia. Qed.
Print Assumptions C34_wrong_number_of_symbols.

Example C34_example : get_function_coordinates [["t"]; ["dx"; "x"]; ["y"; "dy"]] = Ok (["t"; "x"; "y"], ["dt"; "dx"; "dy"]).
Proof. reflexivity. Qed.

(** C35 *)
Theorem C35_displacement_recovered :
  forall func xs ds ds' s, List.length ds = List.length xs -> List.length ds' = List.length xs ->
  (forall d, In d ds -> d = Qred d) -> (forall d, In d ds' -> d = Qred d) ->
  code_regular_function fd_slice_rule func xs ds = Ok s ->
  code_regular_function fd_slice_rule func xs ds' = Ok s -> ds = ds'.
Proof. exact code_regular_inj. Qed.
Print Assumptions C35_displacement_recovered.

Theorem C35_zero_displacement_is_bare :
  forall func xs ds, List.length ds = List.length xs -> (forall d, In d ds -> d = Qmake 0 1) ->
  (~ In "t" xs \/ exists r, xs = "t" :: r) ->
  code_regular_function fd_slice_rule func xs ds = Ok (clean_latex_name func).
Proof.
  intros func xs ds L H Ht. unfold code_regular_function.
  assert (Z0 : forall l, (forall d, In d l -> d = Qmake 0 1) -> existsb (fun d => negb (Qeq_bool d 0)) l = false).
  { clear. induction l as [|d l IH]; intros H; [reflexivity|]. cbn [existsb]. rewrite (H d) by (left; auto).
    rewrite IH; [reflexivity|]. intros; apply H; right; auto. }
  unfold spatial_part. destruct (existsb (String.eqb "t") xs) eqn:E.
  - destruct Ht as [Ht|[r ->]].
    + exfalso. apply existsb_exists in E. destruct E as (x & I & E). apply String.eqb_eq in E. subst. tauto.
    + destruct ds as [|d ds]; [discriminate|]. rewrite (H d) by (left; auto). cbn [String.eqb Ascii.eqb Bool.eqb].
      rewrite Z0 by (intros; apply H; right; auto). simpl. rewrite sapp_nil. reflexivity.
  - rewrite Z0 by auto. cbn [bind]. rewrite sapp_nil. reflexivity.
Qed.
Print Assumptions C35_zero_displacement_is_bare.

Theorem C35_off_grid_rejected :
  forall func xs ds, List.length ds = List.length xs -> (forall d, In d ds -> d = Qred d) ->
  (~ In "t" xs \/ exists r, xs = "t" :: r) ->
  (exists d, In d ds /\ Qden d <> 1%positive) ->
  code_regular_function fd_slice_rule func xs ds = Err AssertionError.
Proof.
  assert (S : forall xs ds, List.length ds = List.length xs -> (exists d, In d ds /\ Qden d <> 1%positive) ->
    slices fd_slice_rule xs ds = Err AssertionError).
  { induction xs as [|x xs IH]; intros [|d ds] L (q & I & N); try discriminate; [destruct I|].
    cbn [slices]. unfold as_integer at 1. destruct (Pos.eqb (Qden d) 1) eqn:E; [|reflexivity].
    destruct I as [->|I]; [apply Pos.eqb_eq in E; congruence|]. rewrite IH; eauto. }
  assert (P : forall xs ds, List.length ds = List.length xs -> (forall d, In d ds -> d = Qred d) ->
    (exists d, In d ds /\ Qden d <> 1%positive) -> spatial_part fd_slice_rule xs ds = Err AssertionError).
  { intros xs ds L C (d & I & N). unfold spatial_part.
    assert (E : existsb (fun d => negb (Qeq_bool d 0)) ds = true).
    { apply existsb_exists. exists d. split; auto. destruct (Qeq_bool d 0) eqn:E; auto. exfalso. apply N.
      apply Qeq_bool_iff in E. rewrite (C d I). apply Qred_complete in E. rewrite E. reflexivity. }
    rewrite E, S; eauto. }
  intros func xs ds L C Ht (d & I & N). unfold code_regular_function. destruct (existsb (String.eqb "t") xs) eqn:E.
  - destruct Ht as [Ht|[r ->]].
    + exfalso. apply existsb_exists in E. destruct E as (x & Ix & E). apply String.eqb_eq in E. subst. tauto.
    + destruct ds as [|d0 ds]; [discriminate|]. cbn [String.eqb Ascii.eqb Bool.eqb].
      unfold as_integer at 1. destruct (Pos.eqb (Qden d0) 1) eqn:E0; [|reflexivity].
      destruct I as [->|I]; [apply Pos.eqb_eq in E0; congruence|]. rewrite P; eauto. intros q Hq. apply C. right; auto.
  - rewrite P; eauto.
Qed.
Print Assumptions C35_off_grid_rejected.

(** the function name is not recoverable: a time tag looks like a name *)
Theorem C35_name_recovered_refuted :
  exists f g xs ds ds' s, f <> g
    /\ code_regular_function fd_slice_rule f xs ds = Ok s /\ code_regular_function fd_slice_rule g xs ds' = Ok s
    /\ ds <> ds'.
Proof.
  exists "u", "up1", ["t"; "x"], [Qmake 1 1; Qmake 0 1], [Qmake 0 1; Qmake 0 1], "up1".
  split; [discriminate|]. split; [reflexivity|]. split; [reflexivity|discriminate].
Qed.
Print Assumptions C35_name_recovered_refuted.

Example C35_example :
  code_regular_function fd_slice_rule (backslash ++ "sigma_{u}") ["t"; "x"; "y"] [Qmake 0 1; Qmake (-1) 1; Qmake 0 1]
  = Ok "sigma_u[np.ix_(self.index('x',-1),self.index('y',0))]"
  /\ code_regular_function fd_slice_rule "u" ["t"; "x"] [Qmake 0 1; Qmake 1 2] = Err AssertionError
  /\ code_regular_function fd_slice_rule "u" ["t"; "x"] [Qmake (-2) 1; Qmake 0 1] = Ok "um2".
Proof. repeat split; reflexivity. Qed.

(** C76 *)
Theorem C76_derivative_names_unique :
  forall f g o o',
  (forall c, In c ["_"; "^"; ","]%char -> no_char c f /\ no_char c g) ->
  (forall c n, In (c, n) (o ++ o') -> no_char "_" c) -> o <> [] -> o' <> [] ->
  derivative_name f o = derivative_name g o' -> clean_latex_name f = clean_latex_name g /\ o = o'.
Proof.
  intros f g o o' H Ho N N' E. apply derivative_name_inj in E; auto.
  - apply no_underscore_keyvar; apply H; simpl; auto.
  - apply no_underscore_keyvar; apply H; simpl; auto.
  - intros c n I. apply (Ho c n), in_or_app; auto.
  - intros c n I. apply (Ho c n), in_or_app; auto.
Qed.
Print Assumptions C76_derivative_names_unique.

(** and then they differ from every field and trend variable *)
Theorem C76_kinds_disjoint :
  forall f g o, (forall c, In c ["_"; "^"; ","]%char -> no_char c g) ->
  derivative_name f o <> clean_latex_name g /\ derivative_name f o <> trend_name g.
Proof.
  intros f g o H.
  assert (U : no_char "_" (keyvar g)) by (apply no_underscore_keyvar; apply H; simpl; auto).
  split; intros E; apply (derivative_name_underscore f o); rewrite E; auto.
  unfold trend_name. intros [I|I]; [discriminate|]. apply U; auto.
Qed.
Print Assumptions C76_kinds_disjoint.

Theorem C76_unique_refuted :
  exists f g o o', f <> g /\ o <> o' /\ o <> [] /\ o' <> [] /\ derivative_name f o = derivative_name g o'.
Proof.
  exists "u", "u_x_o1", [("x", 1); ("y", 1)], [("y", 1)]. repeat split; try discriminate. 
Qed.
Print Assumptions C76_unique_refuted.

Theorem C76_kinds_disjoint_refuted :
  (exists f g o, derivative_name f o = clean_latex_name g) /\ (exists f g, trend_name f = clean_latex_name g).
Proof. split; [exists "u", "Du_x_o1", [("x", 1)]|exists "u", "du"]; reflexivity. Qed.
Print Assumptions C76_kinds_disjoint_refuted.

Example C76_example : derivative_name "V_{u}" [("x", 2); ("y", 10)] = "DV_u_x_o2_y_o10".
Proof. reflexivity. Qed.

(** C82 *)
Theorem C82_spacing_before_x :
  forall y, ident y -> ~ infix "dx" y ->
  replace_spacings fd_dx_rule [y; "x"] ("d" ++ y)
  = ("self.self.dx[self.coordinates.index('x')][self.coordinates.index('" ++ y ++ "')]")%string.
Proof.
  intros y Hy Hn. unfold replace_spacings. cbn [fold_left].
  assert (E1 : replace ("d" ++ y) (fd_dx_rule y) ("d" ++ y) = fd_dx_rule y).
  { pose proof (replace_tokens ("d" ++ y) (fd_dx_rule y) [Id ("d" ++ y)%string] (ident_d y Hy)) as R.
    cbn [text map tok_text sconcat] in R. unfold text in R. cbn [map tok_text sconcat] in R.
    rewrite sapp_nil in R. rewrite R.
    - rewrite String.eqb_refl, sapp_nil. reflexivity.
    - simpl. split; [apply ident_d; auto|auto].
    - intros s [I|[]] _. inversion I; auto. }
  rewrite E1. rewrite <- (rule_text y). rewrite (replace_tokens ("d" ++ "x")).
  - unfold rule_tokens. cbn [map sconcat]. destruct (String.eqb y ("d" ++ "x")) eqn:E.
    + apply String.eqb_eq in E. exfalso. apply Hn. exists "", "". subst. reflexivity.
    + reflexivity.
  - apply ident_b; reflexivity.
  - apply wf_rule; auto.
  - intros s I Hin. unfold rule_tokens in I. simpl in I.
    repeat (destruct I as [I|I]; [try discriminate; inversion I; subst s;
       first [reflexivity|exfalso; revert Hin; apply not_infix_b; reflexivity|exfalso; apply Hn; exact Hin]|]). destruct I.
Qed.
Print Assumptions C82_spacing_before_x.

Example C82_example : replace_spacings fd_dx_rule ["t"; "y"; "x"] "u/dy"
  = "u/self.self.dx[self.coordinates.index('x')][self.coordinates.index('y')]".
Proof. reflexivity. Qed.

(** C83 *)
Theorem C83_raw_coordinate_unknown :
  forall raw shape hist d c s,
  NoDup (map clean_latex_name raw) -> List.length shape = List.length raw ->
  after_history (map clean_latex_name raw) shape hist d ->
  (exists a, In a (chars c) /\ In a [ascii_of_nat 92; "{"%char; "}"%char; "^"%char; ","%char]) ->
  index (map clean_latex_name raw) shape d c s = (Err KeyError, d).
Proof.
  intros raw shape hist d c s ND L H (a & Ia & Sa).
  assert (L' : List.length shape = List.length (map clean_latex_name raw)) by (rewrite map_length; auto).
  apply after_history_good in H; auto. destruct (index_good _ _ L' d c s H) as (_ & B & _). apply B.
  destruct (axis (map clean_latex_name raw) shape c) as [n|] eqn:E; auto. exfalso.
  assert (I : In c (map clean_latex_name raw)) by (apply (axis_In _ shape L'); eauto).
  apply in_map_iff in I. destruct I as (r & E2 & _). apply (C32_result_clean r a); auto. rewrite E2. auto.
Qed.
Print Assumptions C83_raw_coordinate_unknown.

Example C83_example :
  exists d, init_index (map clean_latex_name [(backslash ++ "xi")%string]) [4] = Ok d
    /\ index (map clean_latex_name [(backslash ++ "xi")%string]) [4] d (backslash ++ "xi") 1 = (Err KeyError, d)
    /\ fst (index (map clean_latex_name [(backslash ++ "xi")%string]) [4] d "xi" 1) = Ok [1; 2; 3; 0]%Z.
Proof. eexists. repeat split; reflexivity. Qed.
