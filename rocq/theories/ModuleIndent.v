(** The generated modules are indented as Python wants; the builder of a system; the file written. *)
From Coq Require Import List Arith Bool Ascii String Lia.
From Verif Require Import PyBase PyBaseFacts SymModel PDEModel CodegenModel StrModel TemplateText JinjaModel BuilderModel ModuleSpec ModuleProofs ModuleMain ModuleText.
Import ListNotations.
Open Scope string_scope.
Open Scope list_scope.
Open Scope py_scope.

Lemma read_all_app st a b : read_all st (a ++ b) = match read_all st a with Some st' => read_all st' b | None => None end.
Proof. revert st. induction a as [|x a IH]; intros st; [reflexivity|]. cbn [app read_all]. destruct (read st x); [apply IH|reflexivity]. Qed.
Lemma read_loop {A} st (F : A -> string) xs : (forall a, In a xs -> read st (F a) = Some st) -> read_all st (map F xs) = Some st.
Proof.
  induction xs as [|a xs IH]; intros H; [reflexivity|]. cbn [map read_all]. rewrite (H a) by (left; reflexivity).
  apply IH. intros c Hc. apply H. right. exact Hc.
Qed.
Definition at_state (s : list nat) (d : nat) (o : bool) : reader := {| r_stack := s; r_depth := d; r_opened := o |}.

Lemma read_name k : ident k -> read (at_state [4; 0] 1 false) (at_ 3 ("'" ++ k ++ "',")) = Some (at_state [4; 0] 1 false).
Proof.
  intros [E W]. unfold read. cbn [at_state r_depth r_stack r_opened].
  assert (X : nesting None 1 (at_ 3 ("'" ++ k ++ "',")) = Some 1).
  { change (at_ 3 ("'" ++ k ++ "',")) with ("            '" ++ k ++ "',")%string. rewrite nesting_app.
    change (nesting None 1 "            '") with (Some 1). change (after None "            '") with (Some ("'"%char)). cbv beta iota.
    rewrite nesting_app, nesting_word, after_word by (reflexivity || exact W). reflexivity. }
  rewrite X. reflexivity.
Qed.
Lemma names_ok attr names : ident attr -> (forall k, In k names -> ident k) ->
  read_all (at_state [4; 0] 0 false) (names_tuple attr names) = Some (at_state [4; 0] 0 false).
Proof.
  intros A K. pose proof A as [E W]. unfold names_tuple. rewrite read_all_app.
  assert (X : read_all (at_state [4; 0] 0 false) [at_ 1 (attr ++ " = (")] = Some (at_state [4; 0] 1 false)).
  { cbn [read_all]. unfold read. cbn [at_state r_depth r_stack r_opened].
    change (at_ 1 (attr ++ " = (")) with ("    " ++ attr ++ " = (")%string.
    rewrite nesting_app. change (nesting None 0 "    ") with (Some 0). change (after None "    ") with (@None ascii). cbv beta iota.
    rewrite nesting_app, nesting_word, after_word by (exact I || exact W).
    change (nesting None 0 " = (") with (Some 1). cbn [Nat.eqb andb negb].
    assert (D : indent ("    " ++ attr ++ " = (") = 4 + indent (attr ++ " = (")) by reflexivity.
    rewrite D, ident_indent by exact A. reflexivity. }
  rewrite X, read_all_app, read_loop; [reflexivity|]. intros k Hk. exact (read_name k (K k Hk)).
Qed.

Record plain (s : string) : Prop := {
  p_nesting : nesting None 0 s = Some 0; p_indent : indent s = 0; p_colon : colon s = false }.
Lemma read_plain stack s stack' : plain s -> dedent 8 stack = Some stack' ->
  read (at_state stack 0 false) (at_ 2 s) = Some (at_state stack' 0 false).
Proof.
  intros [N D C] S. unfold read. cbn [at_state r_depth r_stack r_opened]. change (at_ 2 s) with ("        " ++ s)%string.
  rewrite nesting_app. change (nesting None 0 "        ") with (Some 0). change (after None "        ") with (@None ascii). cbv beta iota.
  rewrite N. cbn [Nat.eqb andb negb]. assert (I : indent ("        " ++ s) = 8 + indent s) by reflexivity. rewrite I, D.
  change (8 + 0) with 8. rewrite S. destruct s as [|c s]; [reflexivity|]. rewrite colon_app by discriminate. rewrite C. reflexivity.
Qed.
Lemma plain_oneline s : oneline s -> plain s.
Proof. intros [U B T I E C]. split; assumption. Qed.
Lemma plain_item k v n : ident k -> nesting None 0 v = Some 1 -> after None v = None -> plain (k ++ v ++ str_nat n ++ "]").
Proof.
  intros K V A. pose proof K as [E W]. split.
  - rewrite nesting_app, nesting_word, after_word by (exact I || exact W). rewrite nesting_app, V, A.
    rewrite nesting_app, nesting_word, after_word by (exact I || apply word_nat). reflexivity.
  - apply ident_indent. exact K.
  - assert (X : (str_nat n ++ "]")%string <> "") by (apply not_empty_app; discriminate).
    rewrite !colon_app; try reflexivity; try discriminate; try exact X; apply not_empty_app; exact X.
Qed.
Lemma plain_set k v c : ident k -> nesting None 0 v = Some 0 -> after None v = None -> nesting None 0 c = Some 0 -> colon c = false -> c <> "" ->
  plain (k ++ v ++ c).
Proof.
  intros K V A C D X. pose proof K as [E W]. split.
  - rewrite nesting_app, nesting_word, after_word by (exact I || exact W). rewrite nesting_app, V, A. exact C.
  - apply ident_indent. exact K.
  - rewrite !colon_app; try assumption. apply not_empty_app. exact X.
Qed.
Lemma plain_nan k : ident k -> plain ("self." ++ k ++ " = np.nan").
Proof.
  intros [E W]. split.
  - rewrite nesting_app. change (nesting None 0 "self.") with (Some 0). change (after None "self.") with (@None ascii). cbv beta iota.
    rewrite nesting_app, nesting_word, after_word by (exact I || exact W). reflexivity.
  - reflexivity.
  - rewrite !colon_app by (try discriminate; apply not_empty_app; discriminate). reflexivity.
Qed.

Section Indent.
  Variable b : builder.
  Hypothesis N : neat b.

  Lemma statements_plain s : In s (trend_statements b) -> plain s.
  Proof.
    unfold trend_statements. rewrite !in_app_iff. intros [H|[H|[H|[H|[H|[H|H]]]]]].
    - apply in_map_iff in H as (a & <- & H). apply plain_item; try reflexivity. apply (in_prognostic b N a H).
    - apply in_map_iff in H as (a & <- & H). apply plain_item; try reflexivity. apply (in_prognostic b N a H).
    - apply in_map_iff in H as (k & <- & H). pose proof (n_constant_functions b N k H) as [E W].
      apply plain_set; try reflexivity; try (split; assumption); [apply nesting_word; [exact I|exact W]|apply word_colon; exact W|exact E].
    - apply in_map_iff in H as (k & <- & H). pose proof (n_constants b N k H) as [E W].
      apply plain_set; try reflexivity; try (split; assumption); [apply nesting_word; [exact I|exact W]|apply word_colon; exact W|exact E].
    - destruct (b_exogenous b) as [|e l] eqn:X; [contradiction|]. cbn [unless_empty] in H. destruct H as [<-|H]; [split; reflexivity|].
      apply in_map_iff in H as (a & <- & H). apply plain_item; try reflexivity. apply (in_exogenous b N). rewrite X. exact H.
    - apply in_map_iff in H as ([k c] & <- & H). destruct (n_derivatives b N k c H) as [K [U B T I E C]].
      apply plain_set; try reflexivity; assumption.
    - apply plain_oneline. exact (n_trend b N s H).
  Qed.

  Lemma head_ok : read_all (at_state [0] 0 false) (module_head b) = Some (at_state [4; 0] 0 false).
  Proof.
    unfold module_head. cbn [app read_all]. 
    change (read (at_state [0] 0 false) "from sympkf.model import Model") with (Some (at_state [0] 0 false)). cbv beta iota.
    change (read (at_state [0] 0 false) "import numpy as np") with (Some (at_state [0] 0 false)). cbv beta iota.
    assert (C : read (at_state [0] 0 false) ("class " ++ b_class b ++ "(Model):") = Some (at_state [0] 0 true)).
    { destruct (n_class b N) as [E W]. unfold read. cbn [at_state r_depth r_stack r_opened]. rewrite nesting_app.
      change (nesting None 0 "class ") with (Some 0). change (after None "class ") with (@None ascii). cbv beta iota.
      rewrite nesting_app, nesting_word, after_word by (exact I || exact W). change (nesting None 0 "(Model):") with (Some 0).
      rewrite !colon_app by (try discriminate; apply not_empty_app; discriminate). reflexivity. }
    rewrite C. 
    assert (P : read_all (at_state [0] 0 true) (names_tuple "prognostic_functions" (map fst (b_prognostic b))) = Some (at_state [4; 0] 0 false)).
    { unfold names_tuple. rewrite read_all_app. change (read_all (at_state [0] 0 true) [at_ 1 ("prognostic_functions" ++ " = (")]) with (Some (at_state [4; 0] 1 false)).
      cbv beta iota. rewrite read_all_app, read_loop; [reflexivity|]. intros k Hk. apply in_map_iff in Hk as ([k' d] & <- & H).
      apply read_name. apply (n_prognostic b N k' d H). }
    rewrite read_all_app, P, read_all_app.
    assert (Q : forall attr (l : list string), ident attr -> (forall k, In k l -> ident k) ->
       read_all (at_state [4; 0] 0 false) (unless_empty l (names_tuple attr l)) = Some (at_state [4; 0] 0 false)).
    { intros attr l A K. destruct l as [|x l]; [reflexivity|]. cbn [unless_empty]. apply names_ok; assumption. }
    rewrite Q by (try (split; [discriminate|reflexivity]); apply (n_exogenous b N)).
    rewrite read_all_app, names_ok by (try (split; [discriminate|reflexivity]); apply (n_coordinates b N)).
    rewrite read_all_app, Q by (try (split; [discriminate|reflexivity]); apply (n_constant_functions b N)).
    apply Q; [split; [discriminate|reflexivity]|apply (n_constants b N)].
  Qed.

  Definition inside (st : option reader) : Prop := st = Some (at_state [8; 4; 0] 0 false) \/ st = Some (at_state [16; 12; 8; 4; 0] 0 false).
  Lemma declared_ok attr one names st : (attr, one) = ("constant_functions", "function") \/ (attr, one) = ("constants", "constant") ->
    (forall k, In k names -> ident k) -> inside (Some st) -> inside (read_all st (unless_empty names (set_declared attr one names))).
  Proof.
    intros A K S. destruct names as [|k names]; [exact S|]. right. cbn [unless_empty]. unfold set_declared. rewrite read_all_app.
    assert (X : read_all st (map (fun k => at_ 2 ("self." ++ k ++ " = np.nan")) (k :: names)) = Some (at_state [8; 4; 0] 0 false)).
    { cbn [map read_all]. assert (P : plain ("self." ++ k ++ " = np.nan")) by (apply plain_nan, K; left; reflexivity).
      assert (Y : read st (at_ 2 ("self." ++ k ++ " = np.nan")) = Some (at_state [8; 4; 0] 0 false)).
      { destruct S as [S|S]; inversion S; subst st; apply read_plain; auto; reflexivity. }
      rewrite Y. apply read_loop. intros k' Hk'. apply read_plain; [|reflexivity]. apply plain_nan, K. right. exact Hk'. }
    rewrite X. destruct A as [A|A]; inversion A; subst; reflexivity.
  Qed.
  Lemma tail_ok st : inside (Some st) -> inside (read_all st (constructor_tail b)).
  Proof.
    intros S. unfold constructor_tail. rewrite read_all_app.
    pose proof (declared_ok "constant_functions" "function" (b_constant_functions b) st (or_introl eq_refl) (n_constant_functions b N) S) as H.
    destruct (read_all st _) as [st'|]; [|destruct H; discriminate].
    exact (declared_ok "constants" "constant" (b_constants b) st' (or_intror eq_refl) (n_constants b N) H).
  Qed.
  Lemma trend_ok st : inside (Some st) -> exists s, read_all st (trend_method b) = Some (at_state s 0 false).
  Proof.
    intros S. unfold trend_method. rewrite read_all_app.
    assert (X : read_all st [at_ 1 "def trend(self, t, state):"; at_ 2 """"""" Trend of the dynamics """""""; at_ 2 "dstate = np.zeros(state.shape)"] =
                Some (at_state [8; 4; 0] 0 false)).
    { destruct S as [S|S]; inversion S; subst st; vm_compute; reflexivity. }
    rewrite X, read_all_app, read_loop.
    - rewrite read_all_app. change (read_all (at_state [8; 4; 0] 0 false) [at_ 2 "return dstate"]) with (Some (at_state [8; 4; 0] 0 false)).
      cbv beta iota. destruct (b_exogenous b); eexists; vm_compute; reflexivity.
    - intros s Hs. apply read_plain; [|reflexivity]. apply statements_plain. exact Hs.
  Qed.
  Lemma indent_FD : well_indented (module_FD b).
  Proof.
    unfold well_indented, module_FD. change {| r_stack := [0]; r_depth := 0; r_opened := false |} with (at_state [0] 0 false).
    rewrite read_all_app, head_ok, read_all_app.
    assert (X : read_all (at_state [4; 0] 0 false) constructor_head_FD = Some (at_state [8; 4; 0] 0 false)) by (vm_compute; reflexivity).
    rewrite X, read_all_app. pose proof (tail_ok _ (or_introl eq_refl)) as H. destruct (read_all _ (constructor_tail b)) as [st|]; [|destruct H; discriminate].
    rewrite read_all_app.
    assert (Y : inside (read_all st index_method)) by (destruct H as [H|H]; inversion H; subst st; left; vm_compute; reflexivity).
    destruct (read_all st index_method) as [st'|]; [|destruct Y; discriminate]. exact (trend_ok st' Y).
  Qed.
  Lemma indent_Manifold : well_indented (module_Manifold b).
  Proof.
    unfold well_indented, module_Manifold. change {| r_stack := [0]; r_depth := 0; r_opened := false |} with (at_state [0] 0 false).
    rewrite read_all_app, head_ok, read_all_app.
    assert (X : read_all (at_state [4; 0] 0 false) constructor_head_Manifold = Some (at_state [8; 4; 0] 0 false)) by (vm_compute; reflexivity).
    rewrite X, read_all_app. pose proof (tail_ok _ (or_introl eq_refl)) as H. destruct (read_all _ (constructor_tail b)) as [st|]; [|destruct H; discriminate].
    exact (trend_ok st H).
  Qed.
End Indent.
