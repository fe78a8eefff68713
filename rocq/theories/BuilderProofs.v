(** The builder of a system, keywords, and the file written. *)
From Coq Require Import List Arith Bool Ascii String Lia.
From Verif Require Import PyBase PyBaseFacts SymModel PDEModel CodegenModel StrModel TemplateText JinjaModel BuilderModel ModuleSpec BuilderSpec
  ModuleProofs ModuleMain ModuleText ModuleIndent.
Import ListNotations.
Open Scope string_scope.
Open Scope list_scope.
Open Scope py_scope.

(** ** the statements of trend *)
Lemma numbered_number {A} (l : list A) : forall i, numbered i l = number i l.
Proof. induction l as [|a l IH]; intros i; [reflexivity|]. cbn. rewrite IH. reflexivity. Qed.
Lemma number_map {A B} (f : A -> B) l : forall i, number i (map f l) = map (fun p => (fst p, f (snd p))) (number i l).
Proof. induction l as [|a l IH]; intros i; [reflexivity|]. cbn. rewrite IH. reflexivity. Qed.
Lemma mapM_related {A B C} (f : A -> res B) (h : A -> res C) (t : C -> B) (l : list A) :
  (forall a b, f a = Ok b -> exists c, h a = Ok c /\ t c = b) ->
  forall bs, mapM f l = Ok bs -> exists cs, mapM h l = Ok cs /\ map t cs = bs.
Proof.
  intros H. induction l as [|a l IH]; intros bs E; cbn [mapM] in *; [inversion E; subst; exists []; auto|].
  destruct (f a) as [b|] eqn:F; [|discriminate]. cbn [bind] in E. destruct (mapM f l) as [bs'|]; [|discriminate]. cbn [bind] in E. inversion E; subst.
  destruct (H a b F) as (c & Hc & T), (IH bs' eq_refl) as (cs & Hcs & Ts). exists (c :: cs). rewrite Hc. cbn [bind]. rewrite Hcs. cbn. rewrite T, Ts. auto.
Qed.

Section Trend.
  Variables (enum : list sx -> list sx) (S : pdes) (eqs : list equation) (class_name : string).
  Variables (print : sx -> string) (code_of : string -> list (string * nat) -> string).
  Lemma trend_program_text b : builder_of enum S eqs class_name print (fun _ => code_of) = Ok b ->
    exists prog, trend_program enum S eqs = Ok prog /\ trend_statements b = map (stmt_text print code_of) prog.
  Proof.
    unfold builder_of, trend_program. destruct (pseudo_system enum S eqs) as [ps|]; [|discriminate]. cbn [bind].
    destruct (mapM (trend_text S print) ps) as [tr|] eqn:T; [|discriminate]. cbn [bind].
    destruct (mapM (meta_of_derivative (fun _ => code_of)) (enum (s_derivatives S))) as [ds|] eqn:D; [|discriminate]. cbn [bind].
    intros E. inversion E; subst b. clear E.
    destruct (mapM_related (trend_text S print) (trend_line S) (stmt_text print code_of) ps) with (bs := tr) as (ts & Hts & Ets); auto.
    { intros q s H. unfold trend_text, trend_line in *. destruct (fst q) as [| | | |f v| | | | |]; try discriminate.
      destruct (dgetE sx_eq_dec f (subs_trend S)) as [x|]; [|discriminate]. cbn [bind] in *. inversion H; subst. eauto. }
    destruct (mapM_related (fun d => p <- meta_of_derivative (fun _ => code_of) d ;; Ok (fst p ++ " = " ++ snd p)%string) diff_stmt
                (stmt_text print code_of) (enum (s_derivatives S))) with (bs := map (fun p => (fst p ++ " = " ++ snd p)%string) ds)
      as (us & Hus & Eus).
    { intros d s H. unfold meta_of_derivative, diff_stmt in *. destruct d as [| | | |f v| | | | |]; try discriminate.
      destruct (partial_orders v) as [p|]; [|discriminate]. cbn [bind] in *. inversion H; subst. eexists. split; reflexivity. }
    { revert ds D. induction (enum (s_derivatives S)) as [|d l IH]; intros ds D; cbn [mapM] in *; [inversion D; reflexivity|].
      destruct (meta_of_derivative (fun _ => code_of) d) as [p|]; [|discriminate]. cbn [bind] in *.
      destruct (mapM (meta_of_derivative (fun _ => code_of)) l) as [ps'|]; [|discriminate]. cbn [bind] in D. inversion D; subst.
      rewrite (IH ps' eq_refl). reflexivity. }
    rewrite Hts. cbn [bind]. rewrite Hus. cbn [bind]. eexists. split; [reflexivity|].
    unfold trend_statements. cbn [b_prognostic b_exogenous b_constants b_constant_functions b_derivatives b_trend].
    rewrite !map_app, Ets, Eus, !numbered_number, !number_map, !map_map. cbn [fst snd stmt_text].
    do 4 f_equal. f_equal. destruct (enum (s_exogenous S)) as [|e l]; [reflexivity|]. cbn [map unless_empty]. rewrite map_map. reflexivity.
  Qed.
End Trend.

(** ** keywords *)
(** the name a line assigns to *)
Fixpoint first_word (s : string) : string * string :=
  match s with
  | String c r => if word_char c then let (a, b) := first_word r in (String c a, b) else ("", s)
  | EmptyString => ("", "")
  end.
Fixpoint unindent (s : string) : string :=
  match s with String c r => if Ascii.eqb c " " then unindent r else s | EmptyString => "" end.
Definition bad (line : string) : bool :=
  let (k, r) := first_word (unindent line) in
  lmem string_dec k keywords && starts " = " r.
Lemma unindent_spaces n s : unindent (spaces n ++ s) = unindent s.
Proof. induction n; [reflexivity|]. exact IHn. Qed.
Lemma unindent_ident k s : ident k -> unindent (k ++ s) = (k ++ s)%string.
Proof.
  intros [E W]. destruct k as [|c k]; [contradiction|]. cbn [word append unindent] in *. apply andb_true_iff in W as [W _].
  destruct (word_char_facts c W) as (_ & _ & _ & B & _). rewrite B. reflexivity.
Qed.
Lemma first_word_app k s : word k = true -> (forall c r, s = String c r -> word_char c = false) -> first_word (k ++ s) = (k, s).
Proof.
  intros W S. induction k as [|c k IH]; cbn [append].
  - destruct s as [|c r]; [reflexivity|]. cbn [first_word]. rewrite (S c r eq_refl). reflexivity.
  - cbn [word first_word] in *. apply andb_true_iff in W as [Wc W]. rewrite Wc, (IH W). reflexivity.
Qed.
Lemma starts_app p s : starts p (p ++ s) = true.
Proof. induction p as [|c p IH]; [reflexivity|]. cbn. destruct (ascii_dec c c); [exact IH|contradiction]. Qed.
Lemma keyword_ident k : In k keywords -> ident k.
Proof. cbn. intros H. repeat (destruct H as [<-|H]; [split; [discriminate|reflexivity]|]). contradiction. Qed.
Lemma refused_bad line : refused line -> bad line = true.
Proof.
  intros (n & k & rest & K & ->). unfold bad. rewrite unindent_spaces, unindent_ident by (apply keyword_ident; exact K).
  rewrite first_word_app; [|apply (keyword_ident k K)|intros c r H; inversion H; reflexivity].
  apply andb_true_iff. split; [|apply starts_app]. apply lmem_true. exact K.
Qed.
Lemma not_bad n k s : ident k -> ~ In k keywords -> (forall c r, s = String c r -> word_char c = false) -> bad (spaces n ++ k ++ s) = false.
Proof.
  intros K N S. unfold bad. rewrite unindent_spaces, unindent_ident, first_word_app by (assumption || apply K).
  destruct (lmem string_dec k keywords) eqn:E; [|reflexivity]. apply lmem_true in E. contradiction.
Qed.
Lemma not_bad_other n k s : ident k -> (forall c r, s = String c r -> word_char c = false) -> starts " = " s = false -> bad (spaces n ++ k ++ s) = false.
Proof.
  intros K S B. unfold bad. rewrite unindent_spaces, unindent_ident, first_word_app by (assumption || apply K). rewrite B. apply andb_false_r.
Qed.

Section Keywords.
  Variable b : builder.
  Hypothesis N : neat b.
  Hypothesis K : forall k, In k (given_names b) -> ~ In k keywords.
  Hypothesis St : forall l, In l (b_trend b) -> stores l.
  Ltac given := unfold given_names; rewrite !in_app_iff.
  Ltac brk := let c := fresh in let r := fresh in let H := fresh in intros c r H; inversion H; reflexivity.

  Lemma fine_names attr names s : bad (at_ 1 (attr ++ " = (")) = false -> In s (names_tuple attr names) -> bad s = false.
  Proof.
    intros A. unfold names_tuple. rewrite !in_app_iff. intros [[<-|[]]|[H|[<-|[]]]]; [exact A| |reflexivity].
    apply in_map_iff in H as (k & <- & _). reflexivity.
  Qed.
  Lemma fine_unless {A} (l : list A) ls s : (In s ls -> bad s = false) -> In s (unless_empty l ls) -> bad s = false.
  Proof. destruct l; [intros _ []|auto]. Qed.
  Lemma fine_head s : In s (module_head b) -> bad s = false.
  Proof.
    unfold module_head. cbn [app]. intros [<-|[<-|[<-|H]]]; [reflexivity|reflexivity| |].
    - change ("class " ++ b_class b ++ "(Model):")%string with (spaces 0 ++ "class" ++ (" " ++ b_class b ++ "(Model):"))%string.
      apply not_bad_other; [split; [discriminate|reflexivity]|brk|].
      destruct (n_class b N) as [E W]. destruct (b_class b) as [|c r]; [contradiction|]. cbn [word] in W. apply andb_true_iff in W as [W _].
      cbn [append starts]. destruct (ascii_dec " " " ") as [_|X]; [|contradiction]. destruct (ascii_dec "=" c) as [<-|]; [discriminate W|reflexivity].
    - rewrite !in_app_iff in H. destruct H as [H|[H|[H|[H|H]]]].
      + exact (fine_names "prognostic_functions" _ _ eq_refl H).
      + exact (fine_unless _ _ _ (fine_names "exogenous_functions" _ _ eq_refl) H).
      + exact (fine_names "coordinates" _ _ eq_refl H).
      + exact (fine_unless _ _ _ (fine_names "constant_functions" _ _ eq_refl) H).
      + exact (fine_unless _ _ _ (fine_names "constants" _ _ eq_refl) H).
  Qed.
  Lemma all_fine (l : list string) : forallb (fun s => negb (bad s)) l = true -> forall s, In s l -> bad s = false.
  Proof. intros H s Hs. rewrite forallb_forall in H. specialize (H s Hs). apply negb_true_iff in H. exact H. Qed.
  Lemma fine_tail s : In s (constructor_tail b) -> bad s = false.
  Proof.
    unfold constructor_tail. rewrite in_app_iff. intros [H|H]; revert H; apply fine_unless; unfold set_declared; rewrite in_app_iff; intros [H|H];
      try (apply in_map_iff in H as (k & <- & _); reflexivity); revert H; apply all_fine; vm_compute; reflexivity.
  Qed.
  Lemma fine_trend s : In s (trend_method b) -> bad s = false.
  Proof.
    unfold trend_method. rewrite !in_app_iff. intros [H|[H|[H|H]]].
    - revert H. apply all_fine. vm_compute. reflexivity.
    - apply in_map_iff in H as (t & <- & H). unfold trend_statements in H. rewrite !in_app_iff in H. unfold at_.
      destruct H as [H|[H|[H|[H|[H|[H|H]]]]]].
      + apply in_map_iff in H as ([i [k d]] & <- & H). cbn [fst snd]. apply numbered_in in H. apply not_bad; [apply (n_prognostic b N k d H)| |brk].
        apply K. given. right; left. apply in_map_iff. exists (k, d). auto.
      + apply in_map_iff in H as ([i [k d]] & <- & H). cbn [fst snd]. apply numbered_in in H. apply not_bad; [apply (n_prognostic b N k d H)| |brk].
        apply K. given. left. apply in_map_iff. exists (k, d). auto.
      + apply in_map_iff in H as (k & <- & H). apply not_bad; [exact (n_constant_functions b N k H)| |brk]. apply K. given. auto 10.
      + apply in_map_iff in H as (k & <- & H). apply not_bad; [exact (n_constants b N k H)| |brk]. apply K. given. auto 10.
      + revert H. destruct (b_exogenous b) as [|e l] eqn:X; [intros []|]. cbn [unless_empty]. rewrite <- X. intros [<-|H]; [reflexivity|].
        apply in_map_iff in H as ([i k] & <- & H). cbn [fst snd]. apply numbered_in in H. apply not_bad; [exact (n_exogenous b N k H)| |brk].
        apply K. given. auto 10.
      + apply in_map_iff in H as ([k c] & <- & H). cbn [fst snd]. apply not_bad; [apply (n_derivatives b N k c H)| |brk].
        apply K. given. do 5 right. apply in_map_iff. exists (k, c). auto.
      + destruct (St t H) as (x & e & X & ->). apply not_bad_other; [exact X|brk|reflexivity].
    - revert H. apply all_fine. vm_compute. reflexivity.
    - revert H. apply fine_unless. apply all_fine. vm_compute. reflexivity.
  Qed.
  Lemma fine_FD s : In s (module_FD b) -> ~ refused s.
  Proof.
    intros H R. apply refused_bad in R. unfold module_FD in H. rewrite !in_app_iff in H.
    assert (F : bad s = false); [|congruence]. destruct H as [H|[H|[H|[H|H]]]].
    - exact (fine_head s H).
    - revert H. apply all_fine. vm_compute. reflexivity.
    - exact (fine_tail s H).
    - revert H. apply all_fine. vm_compute. reflexivity.
    - exact (fine_trend s H).
  Qed.
  Lemma fine_Manifold s : In s (module_Manifold b) -> ~ refused s.
  Proof.
    intros H R. apply refused_bad in R. unfold module_Manifold in H. rewrite !in_app_iff in H.
    assert (F : bad s = false); [|congruence]. destruct H as [H|[H|[H|H]]].
    - exact (fine_head s H).
    - revert H. apply all_fine. vm_compute. reflexivity.
    - exact (fine_tail s H).
    - exact (fine_trend s H).
  Qed.
End Keywords.

Lemma keyword_breaks b k : In k (given_names b) -> In k keywords ->
  exists line, In line (trend_method b) /\ refused line.
Proof.
  intros H K.
  assert (G : exists v, In (k ++ " = " ++ v)%string (trend_statements b)).
  { unfold trend_statements. unfold given_names in H. rewrite !in_app_iff in H. setoid_rewrite in_app_iff. setoid_rewrite in_app_iff. setoid_rewrite in_app_iff.
    setoid_rewrite in_app_iff. setoid_rewrite in_app_iff. setoid_rewrite in_app_iff.
    assert (X : forall (l : list (string * string)) p i, In p l -> exists n, In (n, p) (numbered i l)).
    { induction l as [|a l IH]; intros p i; [intros []|]. cbn. intros [<-|I]; [eauto|]. destruct (IH p (S i) I) as (n & Hn). eauto. }
    assert (Y : forall (l : list string) p i, In p l -> exists n, In (n, p) (numbered i l)).
    { induction l as [|a l IH]; intros p i; [intros []|]. cbn. intros [<-|I]; [eauto|]. destruct (IH p (S i) I) as (n & Hn). eauto. }
    destruct H as [H|[H|[H|[H|[H|H]]]]].
    - apply in_map_iff in H as ([k' d] & E & H). cbn in E. subst k'. destruct (X _ _ 0 H) as (n & Hn).
      exists ("state[" ++ str_nat n ++ "]")%string. right; left. apply in_map_iff. exists (n, (k, d)). auto.
    - apply in_map_iff in H as ([k' d] & E & H). cbn in E. subst d. destruct (X _ _ 0 H) as (n & Hn).
      exists ("dstate[" ++ str_nat n ++ "]")%string. left. apply in_map_iff. exists (n, (k', k)). auto.
    - destruct (Y _ _ 0 H) as (n & Hn). exists ("exogenous[" ++ str_nat n ++ "]")%string. do 4 right. left.
      destruct (b_exogenous b) as [|e l] eqn:E; [contradiction|]. cbn [unless_empty]. right. apply in_map_iff. exists (n, k). auto.
    - exists ("self." ++ k)%string. do 3 right. left. apply in_map_iff. exists k. auto.
    - exists ("self." ++ k)%string. do 2 right. left. apply in_map_iff. exists k. auto.
    - apply in_map_iff in H as ([k' c] & E & H). cbn in E. subst k'. exists c. do 5 right. left. apply in_map_iff. exists (k, c). auto. }
  destruct G as (v & G). exists (at_ 2 (k ++ " = " ++ v)). split.
  - unfold trend_method. rewrite !in_app_iff. right. left. apply in_map. exact G.
  - exists 8, k, v. split; [exact K|reflexivity].
Qed.

(** ** the file *)
Lemma licence_comments c : statements (licence ++ c) = statements c.
Proof.
  unfold statements. rewrite !lines_parts, parts_app.
  assert (L : exists ls, parts licence = (ls, "") /\ sts ls = []) by (eexists; split; vm_compute; reflexivity).
  destruct L as (ls & -> & E). destruct (parts c) as [[|l lc] pc]; cbn [fst snd append].
  - change (sts (ls ++ [pc]) = sts ([] ++ [pc])). rewrite sts_app, E. reflexivity.
  - change (sts ((ls ++ l :: lc) ++ [pc]) = sts ((l :: lc) ++ [pc])). rewrite <- app_assoc, sts_app, E. reflexivity.
Qed.
Lemma dget_dset_other {V} k k' (v : V) d : k <> k' -> dget string_dec k' (dset string_dec k v d) = dget string_dec k' d.
Proof. intros H. rewrite dget_dset. destruct (string_dec k' k); [congruence|reflexivity]. Qed.
Lemma lower_small c : lower_char c = small c.
Proof. destruct c as [[] [] [] [] [] [] [] []]; vm_compute; reflexivity. Qed.
Lemma lower_file s : (lower s ++ ".py")%string = file_of s.
Proof.
  unfold file_of. f_equal. unfold lower. induction s as [|c s IH]; [reflexivity|].
  cbn [chars_of map of_chars list_ascii_of_string string_of_list_ascii]. rewrite lower_small, IH. reflexivity.
Qed.
Lemma write_ok body b files s : code body b = Ok s ->
  exists files', write_module body b files = Ok files' /\
    dget string_dec (module_file b) files' = Some (licence ++ s)%string /\
    forall f, f <> module_file b -> dget string_dec f files' = dget string_dec f files.
Proof.
  intros E. unfold write_module, module_text. rewrite E. cbn [bind]. eexists. split; [reflexivity|]. split.
  - rewrite dget_dset. destruct (string_dec (module_file b) (module_file b)); [reflexivity|contradiction].
  - intros f F. apply dget_dset_other. auto.
Qed.
