(** Properties of the text that code_finite_difference and Code produce for an expression: C120. *)
From Coq Require Import List Arith ZArith QArith Bool Ascii String Lia Permutation.
From Verif Require Import PyBase PyBaseFacts StrModel StrSpec StrProofs StrMore CodeTextModel CodeTextSpec CodeTextProofs.
Import ListNotations.
Close Scope Q_scope.
Open Scope string_scope.
Open Scope list_scope.
Open Scope nat_scope.

(** every function of the expression becomes its own code, whatever the order of the functions; then the spacings of
    the coordinates, in the order of their first occurrence, are replaced (what this does is C33) *)
Theorem C120_functions_replaced : forall fs c xs dx_rule first rest,
  (forall f, In f fs -> plain_function f) -> (forall f, In f fs -> applied_to (xs f) f) ->
  (forall f x, In f fs -> In x (xs f) -> plain_coordinate x) ->
  (forall f, In f fs -> code_function fd_slice_rule f = Ok (c f)) ->
  (forall f g, In f fs -> In g fs -> args_text f = args_text g -> pf_args f = pf_args g) ->
  (forall f g p, In f fs -> In g fs -> pf_args f = pf_args g -> pf_name g = (p ++ pf_name f)%string -> clean_latex_name p = p) ->
  (forall p, In p rest -> In (fst p) fs) -> separated first rest ->
  (forall f l, In f fs -> In l (first :: map snd rest) -> ~ infix (pf_name f ++ "(") l) ->
  code_finite_difference fd_slice_rule dx_rule (print_with printed first rest) fs
  = Ok (replace_spacings dx_rule (first_seen (flat_map xs fs)) (print_with c first rest)).
Proof. intros fs c xs dx_rule first rest. rewrite <- print_printed. apply code_text. Qed.
Print Assumptions C120_functions_replaced.

Theorem C120_order_independent : forall fs fs' c xs dx_rule first rest,
  (forall f, In f fs -> plain_function f) -> (forall f, In f fs -> applied_to xs f) ->
  (forall x, In x xs -> plain_coordinate x) ->
  (forall f, In f fs -> code_function fd_slice_rule f = Ok (c f)) ->
  (forall f g, In f fs -> In g fs -> args_text f = args_text g -> pf_args f = pf_args g) ->
  (forall f g p, In f fs -> In g fs -> pf_args f = pf_args g -> pf_name g = (p ++ pf_name f)%string -> clean_latex_name p = p) ->
  (forall p, In p rest -> In (fst p) fs) -> separated first rest ->
  (forall f l, In f fs -> In l (first :: map snd rest) -> ~ infix (pf_name f ++ "(") l) ->
  Permutation fs fs' ->
  code_finite_difference fd_slice_rule dx_rule (print_with str_function first rest) fs
  = code_finite_difference fd_slice_rule dx_rule (print_with str_function first rest) fs'.
Proof. exact code_order. Qed.
Print Assumptions C120_order_independent.

(** without the condition on the names the text depends on the order of the functions: when the name of g is the name of
    f after a prefix p that is not a valid identifier, p is left as it is if f comes first *)
Theorem C120_order_dependent : forall f g p xs c,
  plain_function f -> plain_function g -> applied_to xs f -> (forall x, In x xs -> plain_coordinate x) ->
  pf_args g = pf_args f -> pf_name g = (p ++ pf_name f)%string -> p <> "" -> code_function fd_slice_rule f = Ok c ->
  exists loc,
  replace_functions fd_slice_rule [f; g] [] (str_function g ++ "*" ++ str_function f) = Ok (loc, p ++ c ++ "*" ++ c)%string
  /\ replace_functions fd_slice_rule [g; f] [] (str_function g ++ "*" ++ str_function f)
     = Ok (loc, clean_latex_name p ++ c ++ "*" ++ c)%string.
Proof. exact order_dependent. Qed.
Print Assumptions C120_order_dependent.

(** the fields u and \nu *)
Definition plain_arg (x : string) : parg := PArg x [x] 0%Q.
Definition ex_u : pfun := PFun "u" [plain_arg "t"; plain_arg "x"].
Definition ex_nu : pfun := PFun (backslash ++ "nu") [plain_arg "t"; plain_arg "x"].
Theorem C120_order_refuted : exists text fs fs', Permutation fs fs' /\
  code_finite_difference fd_slice_rule code_dx_rule text fs <> code_finite_difference fd_slice_rule code_dx_rule text fs'.
Proof.
  exists (str_function ex_nu ++ "*" ++ str_function ex_u)%string, [ex_u; ex_nu], [ex_nu; ex_u].
  split; [apply perm_swap|]. vm_compute. discriminate.
Qed.
Print Assumptions C120_order_refuted.
Example C120_order_example :
  code_finite_difference fd_slice_rule code_dx_rule (str_function ex_nu ++ "*" ++ str_function ex_u) [ex_u; ex_nu] = Ok (backslash ++ "nu*u")%string
  /\ code_finite_difference fd_slice_rule code_dx_rule (str_function ex_nu ++ "*" ++ str_function ex_u) [ex_nu; ex_u] = Ok "nu*u".
Proof. split; reflexivity. Qed.
Example C120_order_dependent_example :
  plain_function ex_u /\ plain_function ex_nu /\ applied_to ["t"; "x"] ex_u /\ (forall x, In x ["t"; "x"] -> plain_coordinate x)
  /\ pf_args ex_nu = pf_args ex_u /\ pf_name ex_nu = ((backslash ++ "n") ++ pf_name ex_u)%string
  /\ (backslash ++ "n")%string <> "" /\ code_function fd_slice_rule ex_u = Ok "u".
Proof.
  assert (P : forall n, n <> "" -> forallb (fun c => negb (name_sep c)) (chars n) = true -> plain_function (PFun n [plain_arg "t"; plain_arg "x"])).
  { intros n N H. split; [exact N|]. split.
    - intros c I. rewrite forallb_forall in H. specialize (H c I). destruct (name_sep c); [discriminate|auto].
    - intros c I. cbn in I. repeat (destruct I as [<-|I]; [repeat split; discriminate|]). destruct I. }
  split; [apply P; [discriminate|reflexivity]|]. split; [apply P; [discriminate|reflexivity]|].
  split; [repeat constructor|]. split.
  - intros x I. cbn in I. repeat (destruct I as [<-|I]; [split; [discriminate|]; split; [intros r; discriminate|];
      split; intros J; cbn in J; intuition discriminate|]). destruct I.
  - repeat split; discriminate.
Qed.

(** the property code of a Code object is computed once and kept: it does not change even if the expression does *)
Theorem C120_cache : forall text fs s o, code_property (new_code text fs) = Ok (s, o) ->
  code_finite_difference fd_slice_rule spacing_entry text fs = Ok s
  /\ co_cache o = Some s /\ forall text' fs', code_property (CodeObj text' fs' (co_cache o)) = Ok (s, CodeObj text' fs' (Some s)).
Proof.
  intros text fs s o. change spacing_entry with code_dx_rule. unfold new_code, code_property. cbn [co_cache co_text co_functions].
  destruct (code_finite_difference fd_slice_rule code_dx_rule text fs) as [r|]; [|discriminate]. cbn [bind].
  intros H. inversion H. subst. auto.
Qed.
Print Assumptions C120_cache.

(** the documentation of Code announces fp1_u_xy for f^u_xy one time step ahead; the tag comes last *)
Theorem C120_docstring_refuted : exists f,
  pf_name f = "f^u_xy" /\ map pa_step (pf_args f) = [1; 0; 0]%Q
  /\ (exists o, code_property (new_code (str_function f) [f]) = Ok ("f_u_xyp1", o)) /\ "f_u_xyp1" <> "fp1_u_xy".
Proof.
  exists (PFun "f^u_xy" [PArg "dt + t" ["dt"; "t"] 1%Q; plain_arg "x"; plain_arg "y"]).
  split; [reflexivity|]. split; [reflexivity|]. split; [eexists; reflexivity|discriminate].
Qed.
Print Assumptions C120_docstring_refuted.

(** a centred difference of gu, next to u: the conditions hold although u ends the name gu *)
Definition ex_arg (x : string) (s : Z) : parg :=
  if Z.eqb s 0 then plain_arg x else PArg ((if Z.ltb s 0 then "-d" else "d") ++ x ++ " + " ++ x) [("d" ++ x)%string; x] (inject_Z s).
Definition ex_fun (n : string) (s : Z) : pfun := PFun n [plain_arg "t"; ex_arg "x" s].
Example C120_example :
  let fs := [ex_fun "u" 0; ex_fun "gu" 1; ex_fun "gu" (-1); ex_fun "u" 1] in
  let rest := [(ex_fun "u" 0, "*("); (ex_fun "gu" 1, " - "); (ex_fun "gu" (-1), ")/(2*dx) + "); (ex_fun "u" 1, "")] in
  print_with str_function "" rest = "u(t, x)*(gu(t, dx + x) - gu(t, -dx + x))/(2*dx) + u(t, dx + x)"
  /\ code_finite_difference fd_slice_rule code_dx_rule (print_with str_function "" rest) fs
     = Ok "u*(gu[np.ix_(self.index('x',1))] - gu[np.ix_(self.index('x',-1))])/(2*self.dx['x']) + u[np.ix_(self.index('x',1))]".
Proof. split; reflexivity. Qed.
Example C120_example_hypotheses :
  let fs := [ex_fun "u" 0; ex_fun "gu" 1; ex_fun "gu" (-1); ex_fun "u" 1] in
  let rest := [(ex_fun "u" 0, "*("); (ex_fun "gu" 1, " - "); (ex_fun "gu" (-1), ")/(2*dx) + "); (ex_fun "u" 1, "")] in
  let c f := match code_function fd_slice_rule f with Ok s => s | Err _ => "" end in
  (forall f, In f fs -> plain_function f) /\ (forall f, In f fs -> applied_to ["t"; "x"] f)
  /\ (forall x, In x ["t"; "x"] -> plain_coordinate x)
  /\ (forall f, In f fs -> code_function fd_slice_rule f = Ok (c f))
  /\ (forall f g, In f fs -> In g fs -> args_text f = args_text g -> pf_args f = pf_args g)
  /\ (forall f g p, In f fs -> In g fs -> pf_args f = pf_args g -> pf_name g = (p ++ pf_name f)%string -> clean_latex_name p = p)
  /\ (forall p, In p rest -> In (fst p) fs) /\ separated "" rest
  /\ (forall f l, In f fs -> In l ("" :: map snd rest) -> ~ infix (pf_name f ++ "(") l).
Proof.
  cbv zeta.
  split; [|split; [|split; [|split; [|split; [|split; [|split; [|split]]]]]]].
  - intros f I. assert (H : (negb (String.eqb (pf_name f) "") && forallb (fun c => negb (name_sep c)) (chars (pf_name f))
      && forallb (fun c => negb (existsb (Ascii.eqb c) ["("; ")"; "'"]%char)) (chars (args_text f))) = true).
    { cbn [In] in I. repeat (destruct I as [<-|I]; [reflexivity|]). destruct I. }
    apply andb_true_iff in H. destruct H as [H H3]. apply andb_true_iff in H. destruct H as [H1 H2].
    split; [intros E; rewrite E in H1; discriminate|]. split.
    + intros ch J. rewrite forallb_forall in H2. specialize (H2 ch J). destruct (name_sep ch); [discriminate|auto].
    + intros ch J. rewrite forallb_forall in H3. specialize (H3 ch J).
      repeat split; intros ->; discriminate.
  - intros f I. cbn [In] in I. repeat (destruct I as [<-|I]; [constructor; [left; reflexivity|
      constructor; [first [left; reflexivity|right; right; reflexivity]|constructor]]|]). destruct I.
  - intros x I. cbn in I. repeat (destruct I as [<-|I]; [split; [discriminate|]; split; [intros r; discriminate|];
      split; intros J; cbn in J; intuition discriminate|]). destruct I.
  - intros f I. cbn [In] in I. repeat (destruct I as [<-|I]; [reflexivity|]). destruct I.
  - intros f g I J. cbn [In] in I, J.
    repeat (destruct I as [<-|I]; [repeat (destruct J as [<-|J]; [first [reflexivity|discriminate]|]); destruct J|]). destruct I.
  - intros f g p I J Ea En.
    assert (P : p = "" \/ p = "g").
    { cbn [In] in I, J.
      repeat (destruct I as [<-|I]; [repeat (destruct J as [<-|J]; [cbn [pf_name ex_fun] in En;
        destruct p as [|a [|b [|d p]]]; cbn in En; inversion En; auto|]); destruct J|]). destruct I. }
    destruct P; subst p; reflexivity.
  - intros p I. cbn [In] in I. repeat (destruct I as [<-|I]; [cbn; tauto|]). destruct I.
  - split; [auto|]. cbn [separated_rest].
    split; [split; [reflexivity|discriminate]|]. split; [right; exists "*", "("%char; auto|].
    split; [split; [reflexivity|discriminate]|]. split; [right; exists " -", " "%char; auto|].
    split; [split; [reflexivity|discriminate]|]. split; [right; exists ")/(2*dx) +", " "%char; auto|].
    split; [exact Logic.I|]. split; [left; auto|exact Logic.I].
  - intros f l I J. assert (N : pf_name f = "u" \/ pf_name f = "gu").
    { cbn [In] in I. repeat (destruct I as [<-|I]; [auto|]). destruct I. }
    cbn [In map snd] in J. destruct N as [-> | ->];
    repeat (destruct J as [<-|J]; [apply not_infix_b; reflexivity|]); destruct J.
Qed.
