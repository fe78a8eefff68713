(** The statements of the generated modules, and their indentation. *)
From Coq Require Import List Arith Bool Ascii String Lia.
From Verif Require Import PyBase PyBaseFacts StrModel TemplateText JinjaModel ModuleSpec ModuleProofs ModuleMain.
Import ListNotations.
Open Scope string_scope.
Open Scope list_scope.
Open Scope py_scope.

Lemma map_numbered {A B} (f : A -> B) l : forall i, map (fun p => f (snd p)) (numbered i l) = map f l.
Proof. induction l as [|a l IH]; intros i; [reflexivity|]. cbn. rewrite IH. reflexivity. Qed.

Section Says.
  Variable b : builder.
  Hypothesis N : neat b.
  Notation g := (render_context b).

  Ltac rendered_as := let a := fresh in intros a; cbn; rewrite ?sapp_nil; reflexivity.
  Lemma word_ne k s : ident k -> at_ 2 (k ++ s) <> "".
  Proof. discriminate. Qed.

  Ltac named com mk l f :=
    eapply (says_for g _ _ _ mk l (fun a => ("            '" ++ f a ++ "',    #" ++ com)%string)
                     (fun a => at_ 3 ("'" ++ f a ++ "',")));
    [reflexivity|rendered_as|intros a Ha; split; [apply shape_tuple|discriminate]].

  Lemma in_exogenous a : In a (numbered 0 (b_exogenous b)) -> ident (snd a).
  Proof. destruct a as [n k]. intros H. exact (n_exogenous b N k (numbered_in _ _ _ _ H)). Qed.
  Lemma in_coordinates a : In a (numbered 0 (b_coordinates b)) -> ident (snd a).
  Proof. destruct a as [n k]. intros H. exact (n_coordinates b N k (numbered_in _ _ _ _ H)). Qed.
  Lemma in_cfunctions a : In a (numbered 0 (b_constant_functions b)) -> ident (snd a).
  Proof. destruct a as [n k]. intros H. exact (n_constant_functions b N k (numbered_in _ _ _ _ H)). Qed.
  Lemma in_prognostic a : In a (numbered 0 (b_prognostic b)) -> ident (fst (snd a)) /\ ident (snd (snd a)).
  Proof. destruct a as [n [k d]]. intros H. exact (n_prognostic b N k d (numbered_in _ _ _ _ H)). Qed.

  Lemma tuple_prognostic : says g [IFor "function" ["prognostic_functions"]
      [NText "    "; NText "        '"; NOut ["function"; "as_keyvar"]; NText "',    # Write comments on the function here"]]
    (map (fun k => at_ 3 ("'" ++ k ++ "',")) (map fst (b_prognostic b))).
  Proof.
    rewrite map_map, <- (map_numbered (fun x => at_ 3 ("'" ++ fst x ++ "',")) _ 0).
    named " Write comments on the function here" meta_prognostic (numbered 0 (b_prognostic b)) (fun a : nat * (string * string) => fst (snd a)).
    apply (in_prognostic a Ha).
  Qed.
  Lemma tuple_exogenous : says g [IFor "function" ["exogenous_functions"]
      [NText "    "; NText "        '"; NOut ["function"; "as_keyvar"]; NText "',    # Write comments on the exogenous function here"]]
    (map (fun k => at_ 3 ("'" ++ k ++ "',")) (b_exogenous b)).
  Proof.
    rewrite <- (map_numbered (fun x => at_ 3 ("'" ++ x ++ "',")) _ 0).
    named " Write comments on the exogenous function here" meta_function (numbered 0 (b_exogenous b)) (fun a : nat * string => snd a).
    exact (in_exogenous a Ha).
  Qed.
  Lemma tuple_coordinates : says g [IFor "coord" ["coordinates"]
      [NText "    "; NText "        '"; NOut ["coord"; "as_keyvar"]; NText "',    # Write comments on the coordinate here"]]
    (map (fun k => at_ 3 ("'" ++ k ++ "',")) (b_coordinates b)).
  Proof.
    rewrite <- (map_numbered (fun x => at_ 3 ("'" ++ x ++ "',")) _ 0).
    named " Write comments on the coordinate here" meta_function (numbered 0 (b_coordinates b)) (fun a : nat * string => snd a).
    exact (in_coordinates a Ha).
  Qed.
  Lemma tuple_cfunctions : says g [IFor "function" ["constant_functions"]
      [NText "    "; NText "        '"; NOut ["function"; "as_keyvar"]; NText "',    # Writes comment on the constant function here"]]
    (map (fun k => at_ 3 ("'" ++ k ++ "',")) (b_constant_functions b)).
  Proof.
    rewrite <- (map_numbered (fun x => at_ 3 ("'" ++ x ++ "',")) _ 0).
    named " Writes comment on the constant function here" meta_function (numbered 0 (b_constant_functions b)) (fun a : nat * string => snd a).
    exact (in_cfunctions a Ha).
  Qed.
  Lemma tuple_constants : says g [IFor "constant" ["constants"]
      [NText "    "; NText "        '"; NOut ["constant"; "as_keyvar"]; NText "',    # Writes comment on the constant here"]]
    (map (fun k => at_ 3 ("'" ++ k ++ "',")) (b_constants b)).
  Proof.
    named " Writes comment on the constant here" meta_constant (b_constants b) (fun a : string => a).
    exact (n_constants b N a Ha).
  Qed.

  Lemma nan_cfunctions : says g [IFor "function" ["constant_functions"]
      [NText "        "; NText "self."; NOut ["function"; "as_keyvar"]; NText " = np.nan # @@ set constant value @@"]]
    (map (fun k => at_ 2 ("self." ++ k ++ " = np.nan")) (b_constant_functions b)).
  Proof.
    rewrite <- (map_numbered (fun k => at_ 2 ("self." ++ k ++ " = np.nan")) _ 0).
    eapply (says_for g _ _ _ meta_function (numbered 0 (b_constant_functions b))
              (fun a => ("        self." ++ snd a ++ " = np.nan #" ++ " @@ set constant value @@")%string)
              (fun a => at_ 2 ("self." ++ snd a ++ " = np.nan")));
    [reflexivity|rendered_as|intros a Ha; split; [apply shape_nan|discriminate]]. exact (in_cfunctions a Ha).
  Qed.
  Lemma nan_constants : says g [IFor "constant" ["constants"]
      [NText "        "; NText "self."; NOut ["constant"; "as_keyvar"]; NText " = np.nan # @@ set constant value @@"]]
    (map (fun k => at_ 2 ("self." ++ k ++ " = np.nan")) (b_constants b)).
  Proof.
    eapply (says_for g _ _ _ meta_constant (b_constants b)
              (fun a => ("        self." ++ a ++ " = np.nan #" ++ " @@ set constant value @@")%string)
              (fun a => at_ 2 ("self." ++ a ++ " = np.nan")));
    [reflexivity|rendered_as|intros a Ha; split; [apply shape_nan|discriminate]]. exact (n_constants b N a Ha).
  Qed.

  Lemma alias_trend : says g [IFor "function" ["prognostic_functions"]
      [NText "        "; NText ""; NOut ["function"; "trend"]; NText " = dstate["; NOut ["function"; "index"]; NText "]"]]
    (map (at_ 2) (map (fun p => (snd (snd p) ++ " = dstate[" ++ str_nat (fst p) ++ "]")%string) (numbered 0 (b_prognostic b)))).
  Proof.
    rewrite map_map. eapply (says_for g _ _ _ meta_prognostic (numbered 0 (b_prognostic b))
      (fun a => ("        " ++ snd (snd a) ++ " = dstate[" ++ str_nat (fst a) ++ "]")%string));
    [reflexivity|rendered_as|intros a Ha; split; [apply shape_item; try reflexivity|discriminate]]. apply (in_prognostic a Ha).
  Qed.
  Lemma alias_state : says g [IFor "function" ["prognostic_functions"]
      [NText "        "; NText ""; NOut ["function"; "as_keyvar"]; NText " = state["; NOut ["function"; "index"]; NText "]"]]
    (map (at_ 2) (map (fun p => (fst (snd p) ++ " = state[" ++ str_nat (fst p) ++ "]")%string) (numbered 0 (b_prognostic b)))).
  Proof.
    rewrite map_map. eapply (says_for g _ _ _ meta_prognostic (numbered 0 (b_prognostic b))
      (fun a => ("        " ++ fst (snd a) ++ " = state[" ++ str_nat (fst a) ++ "]")%string));
    [reflexivity|rendered_as|intros a Ha; split; [apply shape_item; try reflexivity|discriminate]]. apply (in_prognostic a Ha).
  Qed.
  Lemma alias_exogenous : says g [IFor "function" ["exogenous_functions"]
      [NText "        "; NText ""; NOut ["function"; "as_keyvar"]; NText " = exogenous["; NOut ["function"; "index"]; NText "]"]]
    (map (at_ 2) (map (fun p => (snd p ++ " = exogenous[" ++ str_nat (fst p) ++ "]")%string) (numbered 0 (b_exogenous b)))).
  Proof.
    rewrite map_map. eapply (says_for g _ _ _ meta_function (numbered 0 (b_exogenous b))
      (fun a => ("        " ++ snd a ++ " = exogenous[" ++ str_nat (fst a) ++ "]")%string));
    [reflexivity|rendered_as|intros a Ha; split; [apply shape_item; try reflexivity|discriminate]]. apply (in_exogenous a Ha).
  Qed.
  Lemma alias_cfunctions : says g [IFor "function" ["constant_functions"]
      [NText "        "; NText ""; NOut ["function"; "as_keyvar"]; NText " = self."; NOut ["function"; "as_keyvar"]; NText ""]]
    (map (at_ 2) (map (fun k => (k ++ " = self." ++ k)%string) (b_constant_functions b))).
  Proof.
    rewrite map_map, <- (map_numbered (fun k => at_ 2 (k ++ " = self." ++ k)) _ 0).
    eapply (says_for g _ _ _ meta_function (numbered 0 (b_constant_functions b))
      (fun a => ("        " ++ snd a ++ " = self." ++ snd a)%string));
    [reflexivity|rendered_as|intros a Ha; split; [|discriminate]].
    apply shape_set; try reflexivity; [|apply kept_ident|apply ident_kept_blank]; apply (in_cfunctions a Ha).
  Qed.
  Lemma alias_constants : says g [IFor "constant" ["constants"]
      [NText "        "; NText ""; NOut ["constant"; "as_keyvar"]; NText " = self."; NOut ["constant"; "as_keyvar"]; NText ""]]
    (map (at_ 2) (map (fun k => (k ++ " = self." ++ k)%string) (b_constants b))).
  Proof.
    rewrite map_map. eapply (says_for g _ _ _ meta_constant (b_constants b) (fun a => ("        " ++ a ++ " = self." ++ a)%string));
    [reflexivity|rendered_as|intros a Ha; split; [|discriminate]].
    apply shape_set; try reflexivity; [|apply kept_ident|apply ident_kept_blank]; apply (n_constants b N a Ha).
  Qed.
  Lemma derivative_lines : says g [IFor "derivative" ["spatial_derivatives"]
      [NText "        "; NText ""; NOut ["derivative"; "as_keyvar"]; NText " = "; NOut ["derivative"; "as_code"]; NText ""]]
    (map (at_ 2) (map (fun p => (fst p ++ " = " ++ snd p)%string) (b_derivatives b))).
  Proof.
    rewrite map_map. eapply (says_for g _ _ _ meta_derivative (b_derivatives b) (fun a => ("        " ++ fst a ++ " = " ++ snd a)%string));
    [reflexivity|rendered_as|intros [k c] Ha; split; [|discriminate]]. destruct (n_derivatives b N k c Ha) as [K C].
    destruct (oneline_kept c C). apply shape_set; try reflexivity; assumption.
  Qed.
  Lemma trend_lines : says g [IFor "line" ["trend_code"] [NText "        "; NText ""; NOut ["line"]; NText ""]]
    (map (at_ 2) (b_trend b)).
  Proof.
    eapply (says_for g _ _ _ VStr (b_trend b) (fun a => ("        " ++ a)%string));
    [reflexivity|rendered_as|intros a Ha; split; [apply shape_line; exact (n_trend b N a Ha)|discriminate]].
  Qed.
  Lemma class_line : says g [ILine [NText "class "; NOut ["class_name"]; NText "(Model):"]] ["class " ++ b_class b ++ "(Model):"]%string.
  Proof. eapply says_out; [reflexivity|exact (shape_class _ (n_class b N))|discriminate]. Qed.

  Lemma head_if_empty {A} (l : list A) (f : A -> string) : map (at_ 2) (map f l) = unless_empty l (map (at_ 2) (map f l)).
  Proof. destruct l; reflexivity. Qed.

  Ltac step :=
    lazymatch goal with
    | |- says _ [] _ => apply says_nil
    | |- says _ (ILine [NText _] :: _) _ => eapply says_cons; [apply says_lit; reflexivity|]
    | |- says _ (ILine _ :: _) _ => eapply says_cons; [exact class_line|]
    | |- says _ (IFor _ _ _ :: _) _ => eapply says_cons;
        [first [exact tuple_prognostic|exact tuple_exogenous|exact tuple_coordinates|exact tuple_cfunctions|exact tuple_constants
               |exact nan_cfunctions|exact nan_constants|exact alias_trend|exact alias_state|exact alias_exogenous
               |exact alias_cfunctions|exact alias_constants|exact derivative_lines|exact trend_lines]|]
    | |- says _ (IIf ["exogenous_functions_flag"] _ :: _) _ => eapply says_cons; [apply (says_if g _ _ (b_exogenous b)); [reflexivity|]|]
    | |- says _ (IIf ["constants_flag"] _ :: _) _ => eapply says_cons; [apply (says_if g _ _ (b_constants b)); [reflexivity|]|]
    | |- says _ (IIf ["constant_functions_flag"] _ :: _) _ => eapply says_cons; [apply (says_if g _ _ (b_constant_functions b)); [reflexivity|]|]
    end.
  Lemma says_eq l ls ls' : says g l ls -> ls = ls' -> says g l ls'.
  Proof. intros H <-. exact H. Qed.

  Lemma map_unless {A} (l : list A) (f : string -> string) ls : map f (unless_empty l ls) = unless_empty l (map f ls).
  Proof. destruct l; reflexivity. Qed.

  Lemma statements_lines : map (at_ 2) (trend_statements b) =
    map (at_ 2) (map (fun p => (snd (snd p) ++ " = dstate[" ++ str_nat (fst p) ++ "]")%string) (numbered 0 (b_prognostic b))) ++
    map (at_ 2) (map (fun p => (fst (snd p) ++ " = state[" ++ str_nat (fst p) ++ "]")%string) (numbered 0 (b_prognostic b))) ++
    unless_empty (b_constant_functions b) (map (at_ 2) (map (fun k => (k ++ " = self." ++ k)%string) (b_constant_functions b))) ++
    unless_empty (b_constants b) (map (at_ 2) (map (fun k => (k ++ " = self." ++ k)%string) (b_constants b))) ++
    unless_empty (b_exogenous b) ("        exogenous = self.compute_exogenous(t, state)" ::
      map (at_ 2) (map (fun p => (snd p ++ " = exogenous[" ++ str_nat (fst p) ++ "]")%string) (numbered 0 (b_exogenous b)))) ++
    map (at_ 2) (map (fun p => (fst p ++ " = " ++ snd p)%string) (b_derivatives b)) ++
    map (at_ 2) (b_trend b).
  Proof. unfold trend_statements. rewrite !map_app, map_unless, <- !head_if_empty. reflexivity. Qed.
  Ltac normal :=
    unfold module_head, names_tuple, constructor_head_FD, constructor_head_Manifold, constructor_tail, set_declared, index_method;
    cbn [app map]; repeat (rewrite <- ?app_assoc, ?app_nil_r; cbn [app map]); reflexivity.
  Lemma says_FD : says g items_FD (module_FD b).
  Proof.
    eapply says_eq; [unfold items_FD; repeat step|].
    unfold module_FD, trend_method. rewrite statements_lines. normal.
  Qed.
  Lemma says_Manifold : says g items_Manifold (module_Manifold b).
  Proof.
    eapply says_eq; [unfold items_Manifold; repeat step|].
    unfold module_Manifold, trend_method. rewrite statements_lines. normal.
  Qed.

  Lemma cut_FD : exists i, cut_nodes [] (all_nodes body_FD) = Some (i, [NText ""]) /\ simps i = items_FD.
  Proof. eexists. split; [vm_compute; reflexivity|vm_compute; reflexivity]. Qed.
  Lemma cut_Manifold : exists i, cut_nodes [] (all_nodes body_Manifold) = Some (i, [NText ""]) /\ simps i = items_Manifold.
  Proof. eexists. split; [vm_compute; reflexivity|vm_compute; reflexivity]. Qed.

  Lemma text_FD : exists s, code body_FD b = Ok s /\ statements s = module_FD b.
  Proof.
    rewrite code_nodes by (vm_compute; reflexivity). destruct cut_FD as (i & C & E). destruct says_FD as (raw & R & S). rewrite <- S, <- E in *.
    apply (rendered g _ i [NText ""] raw ""); auto. apply clean_builder. exact N.
  Qed.
  Lemma text_Manifold : exists s, code body_Manifold b = Ok s /\ statements s = module_Manifold b.
  Proof.
    rewrite code_nodes by (vm_compute; reflexivity). destruct cut_Manifold as (i & C & E). destruct says_Manifold as (raw & R & S). rewrite <- S, <- E in *.
    apply (rendered g _ i [NText ""] raw ""); auto. apply clean_builder. exact N.
  Qed.
End Says.
