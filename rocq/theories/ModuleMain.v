(** The text of the generated modules: the lemmas behind the theorems. *)
From Coq Require Import List Arith Bool Ascii String Lia.
From Verif Require Import PyBase PyBaseFacts StrModel TemplateText JinjaModel ModuleSpec ModuleProofs.
Import ListNotations.
Open Scope string_scope.
Open Scope list_scope.
Open Scope py_scope.

(** ** texts put together *)
Fixpoint after (q : option ascii) (s : string) : option ascii :=
  match s with EmptyString => q | String c r => after (quote_after q c) r end.
Fixpoint nocomment (q : option ascii) (s : string) : bool :=
  match s with
  | EmptyString => true
  | String c r => match q with None => negb (Ascii.eqb c "#") | Some _ => true end && nocomment (quote_after q c) r
  end.
Lemma uncomment_app a : forall q r, nocomment q a = true -> uncomment q (a ++ r) = (a ++ uncomment (after q a) r)%string.
Proof.
  induction a as [|c a IH]; intros q r H; [reflexivity|]. cbn [nocomment] in H. apply andb_true_iff in H as [C H].
  cbn [append uncomment after]. destruct q as [d|].
  - rewrite IH by assumption. reflexivity.
  - apply negb_true_iff in C. rewrite C, IH by assumption. reflexivity.
Qed.
Lemma nesting_app a : forall q n r, nesting q n (a ++ r) =
  match nesting q n a with Some m => nesting (after q a) m r | None => None end.
Proof.
  induction a as [|c a IH]; intros q n r; [reflexivity|]. cbn [append nesting after]. destruct q as [d|]; [apply IH|].
  destruct (opening c); [apply IH|]. destruct (closing c); [|apply IH]. destruct n; [reflexivity|apply IH].
Qed.
Lemma blank_app a r : blank (a ++ r) = blank a && blank r.
Proof. induction a as [|c a IH]; [reflexivity|]. cbn [append blank]. rewrite IH. apply andb_assoc. Qed.
Lemma trim_app a r : blank r = false -> trim (a ++ r) = (a ++ trim r)%string.
Proof.
  intros B. induction a as [|c a IH]; [reflexivity|]. cbn [append trim]. change (String c (a ++ r)) with (String c a ++ r)%string.
  rewrite blank_app, B, andb_false_r, IH. reflexivity.
Qed.
Lemma last_app a r : r <> "" -> last_char (a ++ r) = last_char r.
Proof.
  intros R. induction a as [|c a IH]; [reflexivity|]. cbn [append]. destruct (a ++ r)%string eqn:E; [|cbn [last_char]; exact IH].
  destruct a; [cbn in E; contradiction|discriminate].
Qed.
Lemma colon_app a r : r <> "" -> colon (a ++ r) = colon r.
Proof. intros R. unfold colon. rewrite last_app by assumption. reflexivity. Qed.
Lemma not_empty_app a r : r <> "" -> (a ++ r)%string <> "".
Proof. destruct a; [auto|discriminate]. Qed.

(** ** words *)
Definition fine (q : option ascii) : Prop := match q with None => True | Some d => is_quote d = true end.
Lemma word_char_facts c : word_char c = true ->
  is_quote c = false /\ Ascii.eqb c "#" = false /\ Ascii.eqb c newline = false /\ Ascii.eqb c " " = false /\
  opening c = false /\ closing c = false /\ Ascii.eqb c ":" = false.
Proof. destruct c as [[] [] [] [] [] [] [] []]; vm_compute; intros; try discriminate; repeat split. Qed.
Lemma quote_word q c : fine q -> word_char c = true -> quote_after q c = q.
Proof.
  intros F W. destruct (word_char_facts c W) as (Q & _). destruct q as [d|]; cbn [quote_after].
  - destruct (Ascii.eqb c d) eqn:E; [|reflexivity]. apply Ascii.eqb_eq in E. subst d. cbn in F. congruence.
  - rewrite Q. reflexivity.
Qed.
Lemma after_word q s : fine q -> word s = true -> after q s = q.
Proof.
  intros F. induction s as [|c s IH]; [reflexivity|]. cbn [word after]. intros W. apply andb_true_iff in W as [W1 W2].
  rewrite quote_word by assumption. exact (IH W2).
Qed.
Lemma nocomment_word q s : fine q -> word s = true -> nocomment q s = true.
Proof.
  intros F. induction s as [|c s IH]; [reflexivity|]. cbn [word nocomment]. intros W. apply andb_true_iff in W as [W1 W2].
  rewrite quote_word, IH by assumption. destruct (word_char_facts c W1) as (_ & C & _). rewrite C. destruct q; reflexivity.
Qed.
Lemma nesting_word q n s : fine q -> word s = true -> nesting q n s = Some n.
Proof.
  intros F. induction s as [|c s IH]; [reflexivity|]. cbn [word nesting]. intros W. apply andb_true_iff in W as [W1 W2].
  rewrite quote_word, IH by assumption. destruct (word_char_facts c W1) as (_ & _ & _ & _ & O & C & _). rewrite O, C. destruct q; reflexivity.
Qed.
Lemma word_nonl s : word s = true -> nonl s.
Proof.
  unfold nonl. induction s as [|c s IH]; [reflexivity|]. cbn [word parts]. intros W. apply andb_true_iff in W as [W1 W2].
  rewrite (IH W2). destruct (word_char_facts c W1) as (_ & _ & N & _). rewrite N. reflexivity.
Qed.
Lemma word_trim s : word s = true -> trim s = s.
Proof.
  induction s as [|c s IH]; [reflexivity|]. cbn [word trim blank]. intros W. apply andb_true_iff in W as [W1 W2].
  destruct (word_char_facts c W1) as (_ & _ & _ & B & _). rewrite B. cbn [andb]. rewrite (IH W2). reflexivity.
Qed.
Lemma ident_blank s : ident s -> blank s = false.
Proof.
  intros [E W]. destruct s as [|c s]; [contradiction|]. cbn [word blank] in *. apply andb_true_iff in W as [W1 _].
  destruct (word_char_facts c W1) as (_ & _ & _ & B & _). rewrite B. reflexivity.
Qed.
Lemma ident_indent s r : ident s -> indent (s ++ r) = 0.
Proof.
  intros [E W]. destruct s as [|c s]; [contradiction|]. cbn [word append indent] in *. apply andb_true_iff in W as [W1 _].
  destruct (word_char_facts c W1) as (_ & _ & _ & B & _). rewrite B. reflexivity.
Qed.
Lemma word_colon s : word s = true -> colon s = false.
Proof.
  unfold colon. induction s as [|c s IH]; [reflexivity|]. cbn [word]. intros W. apply andb_true_iff in W as [W1 W2].
  destruct s; [|exact (IH W2)]. cbn. apply (word_char_facts c W1).
Qed.
Lemma word_nat n : word (str_nat n) = true.
Proof. unfold str_nat. induction (Nat.to_uint n); cbn; auto. Qed.
Lemma oneline_after c : unbroken None c = true -> nocomment None c = true /\ after None c = None /\ nonl c.
Proof.
  unfold nonl. generalize (@None ascii) at 1 2 3. induction c as [|x c IH]; intros q; cbn [unbroken nocomment after parts].
  - destruct q; [discriminate|]. auto.
  - intros H. apply andb_true_iff in H as [H U]. apply andb_true_iff in H as [N C]. destruct (IH _ U) as (A & B & D).
    rewrite A, B, D, C. apply negb_true_iff in N. unfold newline. rewrite N. auto.
Qed.

(** ** the statements of a list of items *)
Definition says (g : context) (l : list item) (ls : list string) : Prop :=
  exists raw, items_lines g l = Ok raw /\ sts raw = ls.
Lemma says_nil g : says g [] [].
Proof. exists []. auto. Qed.
Lemma says_cons g i r a b : says g [i] a -> says g r b -> says g (i :: r) (a ++ b).
Proof.
  intros (x & X & Sx) (y & Y & Sy). exists (x ++ y). change (i :: r) with ([i] ++ r). rewrite items_app, X. cbn [bind]. rewrite Y. cbn [bind].
  rewrite sts_app, Sx, Sy. auto.
Qed.
Lemma says_lit g s : kept s = s -> String.eqb s "" = false -> says g [ILine [NText s]] [s].
Proof. intros K E. exists [s]. cbn. rewrite sapp_nil. split; [reflexivity|]. unfold sts. cbn [map filter]. rewrite K, E. reflexivity. Qed.
Lemma says_out g l s t : render_nodes g l = Ok s -> kept s = t -> t <> "" -> says g [ILine l] [t].
Proof.
  intros R K E. exists [s]. cbn [items_lines item_lines]. rewrite R. split; [reflexivity|]. unfold sts. cbn [map filter]. rewrite K.
  apply String.eqb_neq in E. rewrite E. reflexivity.
Qed.
Lemma says_if {A} g p l (xs : list A) ls : value_of g p = Ok (VBool (not_empty xs)) -> says g l ls ->
  says g [IIf p l] (unless_empty xs ls).
Proof.
  intros V (raw & R & S). destruct xs as [|x xs]; cbn [not_empty unless_empty] in *.
  - exists []. cbn [items_lines]. rewrite item_if, V. auto.
  - exists raw. cbn [items_lines]. rewrite item_if, V. cbn [bind truth]. rewrite R. cbn [bind]. rewrite app_nil_r. auto.
Qed.
Lemma says_for {A} g x p l (mk : A -> value) (xs : list A) (F G : A -> string) :
  value_of g p = Ok (VList (map mk xs)) -> (forall a, render_nodes ((x, mk a) :: g) l = Ok (F a)) ->
  (forall a, In a xs -> kept (F a) = G a /\ G a <> "") -> says g [IFor x p l] (map G xs).
Proof.
  intros V R K. exists (map F xs). cbn [items_lines item_lines]. rewrite V. cbn [bind iterated].
  assert (M : mapM (fun v => render_nodes ((x, v) :: g) l) (map mk xs) = Ok (map F xs)).
  { clear V K. induction xs as [|a xs IH]; [reflexivity|]. cbn [map mapM]. rewrite R. cbn [bind]. rewrite IH. reflexivity. }
  rewrite M. cbn [bind]. rewrite app_nil_r. split; [reflexivity|]. clear V R M.
  induction xs as [|a xs IH]; [reflexivity|]. unfold sts in *. cbn [map filter]. destruct (K a) as [E N]; [left; reflexivity|].
  rewrite E. apply String.eqb_neq in N. rewrite N. cbn [negb]. f_equal. apply IH. intros b Hb. apply K. right. exact Hb.
Qed.

(** what stays of a line *)
Lemma kept_app a r : nocomment None a = true -> after None a = None -> blank (uncomment None r) = false ->
  kept (a ++ r) = (a ++ kept r)%string.
Proof. intros N A B. unfold kept. rewrite uncomment_app, A by assumption. apply trim_app. exact B. Qed.
Lemma kept_word s r : word s = true -> blank (uncomment None r) = false -> kept (s ++ r) = (s ++ kept r)%string.
Proof. intros W B. apply kept_app; auto; [apply nocomment_word|apply after_word]; cbn; auto. Qed.
Lemma kept_ident s : ident s -> kept s = s.
Proof.
  intros [E W]. unfold kept. rewrite <- (sapp_nil s) at 1. rewrite uncomment_app by (apply nocomment_word; cbn; auto). cbn. rewrite sapp_nil.
  apply word_trim. exact W.
Qed.
Lemma ident_kept_blank s : ident s -> blank (uncomment None s) = false.
Proof.
  intros I. rewrite <- (sapp_nil s). rewrite uncomment_app by (apply nocomment_word; [exact Logic.I|apply I]). cbn [uncomment].
  rewrite sapp_nil. exact (ident_blank s I).
Qed.
Lemma oneline_kept s : oneline s -> kept s = s /\ blank (uncomment None s) = false.
Proof.
  intros [U B T I E C]. destruct (oneline_after s U) as (N & A & _).
  assert (X : uncomment None s = s). { rewrite <- (sapp_nil s) at 1. rewrite uncomment_app by assumption. cbn. apply sapp_nil. }
  unfold kept. rewrite X. split; [exact T|]. destruct s as [|c s]; [contradiction|]. cbn [indent] in I. cbn [blank].
  destruct (Ascii.eqb c " "); [discriminate|reflexivity].
Qed.

(** the shapes of lines with names *)
Lemma shape_tuple k com : ident k ->
  kept ("            '" ++ k ++ "',    #" ++ com) = at_ 3 ("'" ++ k ++ "',").
Proof.
  intros [E W]. unfold kept. rewrite (uncomment_app "            '" None) by reflexivity.
  change (after None "            '") with (Some ("'"%char)).
  rewrite uncomment_app by (apply nocomment_word; [reflexivity|exact W]). rewrite after_word by (try reflexivity; exact W).
  change (uncomment (Some "'"%char) ("',    #" ++ com)) with "',    ".
  rewrite trim_app by (rewrite blank_app; cbn; apply andb_false_r). rewrite trim_app by reflexivity. reflexivity.
Qed.
Lemma shape_nan k com : ident k -> kept ("        self." ++ k ++ " = np.nan #" ++ com) = at_ 2 ("self." ++ k ++ " = np.nan").
Proof.
  intros [E W]. unfold kept. rewrite (uncomment_app "        self." None) by reflexivity.
  change (after None "        self.") with (@None ascii).
  rewrite uncomment_app by (apply nocomment_word; [exact I|exact W]). rewrite after_word by (try exact I; exact W).
  change (uncomment None (" = np.nan #" ++ com)) with " = np.nan ".
  rewrite trim_app by (rewrite blank_app; cbn; apply andb_false_r). rewrite trim_app by reflexivity. reflexivity.
Qed.
Lemma shape_item k v n : ident k -> nocomment None v = true -> after None v = None ->
  kept ("        " ++ k ++ v ++ str_nat n ++ "]") = at_ 2 (k ++ v ++ str_nat n ++ "]").
Proof.
  intros [E W] N A.
  assert (B3 : blank (uncomment None (str_nat n ++ "]")) = false).
  { rewrite uncomment_app by (apply nocomment_word; [exact I|apply word_nat]). rewrite after_word by (try exact I; apply word_nat).
    rewrite blank_app. cbn. apply andb_false_r. }
  assert (B2 : blank (uncomment None (v ++ str_nat n ++ "]")) = false).
  { rewrite uncomment_app, A, blank_app, B3 by assumption. apply andb_false_r. }
  assert (B1 : blank (uncomment None (k ++ v ++ str_nat n ++ "]")) = false).
  { rewrite uncomment_app by (apply nocomment_word; [exact I|exact W]). rewrite after_word by (try exact I; exact W).
    rewrite blank_app, B2. apply andb_false_r. }
  rewrite kept_app by (reflexivity || assumption). rewrite kept_word by assumption. rewrite kept_app by assumption.
  rewrite kept_word by (apply word_nat || reflexivity). reflexivity.
Qed.
Lemma shape_set k v c : ident k -> nocomment None v = true -> after None v = None -> kept c = c -> blank (uncomment None c) = false ->
  kept ("        " ++ k ++ v ++ c) = at_ 2 (k ++ v ++ c).
Proof.
  intros [E W] N A K B3.
  assert (B2 : blank (uncomment None (v ++ c)) = false).
  { rewrite uncomment_app, A, blank_app, B3 by assumption. apply andb_false_r. }
  assert (B1 : blank (uncomment None (k ++ v ++ c)) = false).
  { rewrite uncomment_app by (apply nocomment_word; [exact I|exact W]). rewrite after_word by (try exact I; exact W).
    rewrite blank_app, B2. apply andb_false_r. }
  rewrite kept_app by (reflexivity || assumption). rewrite kept_word by assumption. rewrite kept_app, K by assumption. reflexivity.
Qed.
Lemma shape_line c : oneline c -> kept ("        " ++ c) = at_ 2 c.
Proof. intros O. destruct (oneline_kept c O) as [K B]. rewrite kept_app by (reflexivity || assumption). rewrite K. reflexivity. Qed.
Lemma shape_class k : ident k -> kept ("class " ++ k ++ "(Model):") = ("class " ++ k ++ "(Model):")%string.
Proof.
  intros [E W]. rewrite kept_app; try reflexivity.
  - rewrite kept_word by (assumption || reflexivity). reflexivity.
  - rewrite uncomment_app by (apply nocomment_word; [exact I|exact W]). rewrite after_word by (try exact I; exact W).
    rewrite blank_app. cbn. apply andb_false_r.
Qed.

(** ** the templates, parsed and cut into lines by computation *)
Definition nodes (t : string) : list node := match template t with Some l => l | None => [] end.
Definition all_nodes (body : string) : list node := nodes header ++ nodes body ++ nodes footer.
Definition all_items (body : string) : list item :=
  match cut_nodes [] (all_nodes body) with Some (i, _) => simps i | None => [] end.
Definition items_FD : list item := Eval vm_compute in all_items body_FD.
Definition items_Manifold : list item := Eval vm_compute in all_items body_Manifold.

Lemma code_nodes body b : template body = Some (nodes body) -> code body b = render_nodes (render_context b) (all_nodes body).
Proof.
  intros B. unfold code, all_nodes. cbn [foldM]. unfold render. rewrite B.
  assert (H : template header = Some (nodes header)) by (vm_compute; reflexivity).
  assert (F : template footer = Some (nodes footer)) by (vm_compute; reflexivity).
  rewrite H, F. rewrite !render_app. destruct (render_nodes (render_context b) (nodes header)) as [x|]; [|reflexivity]. cbn [bind].
  destruct (render_nodes (render_context b) (nodes body)) as [y|]; [|reflexivity]. cbn [bind].
  destruct (render_nodes (render_context b) (nodes footer)) as [z|]; [|reflexivity]. cbn [bind append]. rewrite sapp_assoc. reflexivity.
Qed.

Lemma clean_map {A} (mk : A -> value) xs : (forall a, In a xs -> clean (mk a)) -> clean (VList (map mk xs)).
Proof. intros H. induction xs as [|a xs IH]; [exact I|]. split; [apply H; left; reflexivity|]. apply IH. intros b Hb. apply H. right. exact Hb. Qed.
Lemma numbered_in {A} (l : list A) : forall i n a, In (n, a) (numbered i l) -> In a l.
Proof. induction l as [|x l IH]; intros i n a; [intros []|]. cbn. intros [E|H]; [left; congruence|right; eauto]. Qed.
Lemma clean_builder b : neat b -> clean (VObj (render_context b)).
Proof.
  intros [N1 N2 N3 N4 N5 N6 N7 N8]. repeat split; try (apply word_nonl; apply N1); try apply clean_map.
  - intros [n [k d]] H. apply numbered_in in H. destruct (N2 k d H) as [[_ K] [_ D]]. repeat split; apply word_nonl; assumption.
  - intros [n k] H. apply numbered_in in H. destruct (N3 k H) as [_ K]. repeat split; apply word_nonl; assumption.
  - intros [n k] H. apply numbered_in in H. destruct (N4 k H) as [_ K]. repeat split; apply word_nonl; assumption.
  - intros k H. destruct (N5 k H) as [_ K]. repeat split; apply word_nonl; assumption.
  - intros [n k] H. apply numbered_in in H. destruct (N6 k H) as [_ K]. repeat split; apply word_nonl; assumption.
  - intros [k c] H. destruct (N7 k c H) as [[_ K] C]. repeat split; [apply word_nonl; assumption|].
    apply (oneline_after c (l_unbroken c C)).
  - intros c H. apply (oneline_after c (l_unbroken c (N8 c H))).
Qed.
