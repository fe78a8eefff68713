(** The builder of a readable system is neat; the code of derivatives on a manifold. *)
From Coq Require Import List Arith Bool Ascii String Lia Permutation.
From Verif Require Import PyBase PyBaseFacts SymModel PDEModel CodegenModel StrModel TemplateText JinjaModel BuilderModel ModuleSpec BuilderSpec
  ModuleProofs ModuleMain ModuleText ModuleIndent BuilderProofs.
Import ListNotations.
Open Scope string_scope.
Open Scope list_scope.
Open Scope py_scope.

Lemma word_app a b : word (a ++ b) = word a && word b.
Proof. induction a as [|c a IH]; [reflexivity|]. cbn. rewrite IH. apply andb_assoc. Qed.
Lemma word_join l : (forall s, In s l -> word s = true) -> word (join "_" l) = true.
Proof.
  induction l as [|a l IH]; intros H; [reflexivity|]. destruct l as [|b l]; [apply H; left; reflexivity|].
  change (join "_" (a :: b :: l)) with (a ++ "_" ++ join "_" (b :: l))%string. rewrite !word_app, (H a) by (left; reflexivity).
  rewrite IH; [reflexivity|]. intros s Hs. apply H. right. exact Hs.
Qed.
Lemma ident_d k : word k = true -> ident ("d" ++ k).
Proof. intros W. split; [discriminate|exact W]. Qed.

Lemma orders_in v p c n : partial_orders v = Ok p -> In (c, n) p -> In (c, n) v.
Proof.
  unfold partial_orders. destruct v as [|a v]; [discriminate|]. intros E. inversion E; subst p; clear E.
  assert (G : forall (l : list (string * nat)) (d : dict string nat), In (c, n) (fold_left (fun d p => dset string_dec (fst p) (snd p) d) l d) -> In (c, n) l \/ In (c, n) d).
  { induction l as [|[k m] l IH]; intros d H; [auto|]. cbn [fold_left fst snd] in H. destruct (IH _ H) as [H'|H']; [left; right; exact H'|].
    assert (X : In (c, n) (dset string_dec k m d) -> (c, n) = (k, m) \/ In (c, n) d).
    { clear. induction d as [|[k' m'] d IH]; cbn; [intros [H|[]]; auto|]. destruct (string_dec k k') as [->|]; cbn.
      - intros [H|H]; auto.
      - intros [H|H]; auto. destruct (IH H); auto. }
    destruct (X H') as [->|]; [left; left; reflexivity|right; assumption]. }
  intros H. destruct (G (a :: v) [] H) as [H'|[]]; exact H'.
Qed.
Lemma orders_nonempty v p : partial_orders v = Ok p -> p <> [].
Proof.
  unfold partial_orders. destruct v as [|a v]; [discriminate|]. intros E. inversion E; subst p; clear E. cbn [fold_left].
  assert (G : forall (l : list (string * nat)) (d : dict string nat), d <> [] -> fold_left (fun d p => dset string_dec (fst p) (snd p) d) l d <> []).
  { induction l as [|[k m] l IH]; intros d H; [exact H|]. cbn [fold_left]. apply IH. destruct d as [|[k' m'] d]; [contradiction|]. cbn [dset fst snd]. destruct (string_dec k k'); intros X; discriminate X. }
  apply G. discriminate.
Qed.

(** pieces without line break or comment, inside the brackets of a call *)
Lemma piece_unbroken a : forall q r, unbroken q (a ++ r) =
  (forallb (fun c => negb (Ascii.eqb c newline)) (chars_of a) && nocomment q a && unbroken (after q a) r).
Proof.
  induction a as [|c a IH]; intros q r; [reflexivity|]. cbn [append unbroken nocomment after chars_of forallb]. rewrite IH. unfold newline.
  set (x := forallb _ (chars_of a)). set (y := nocomment _ a). set (z := unbroken _ r).
  destruct (negb (Ascii.eqb c (ascii_of_nat 10))), q, x, y, z; cbn [andb]; rewrite ?andb_false_r, ?andb_true_r; reflexivity.
Qed.
Lemma word_lines k : word k = true -> forallb (fun c => negb (Ascii.eqb c newline)) (chars_of k) = true.
Proof.
  induction k as [|c k IH]; [reflexivity|]. cbn [word chars_of forallb]. intros W. apply andb_true_iff in W as [W1 W2].
  destruct (word_char_facts c W1) as (_ & _ & N & _). rewrite N. exact (IH W2).
Qed.
(** texts that can stand between brackets *)
Record piece (s : string) : Prop := {
  pc_lines : forallb (fun c => negb (Ascii.eqb c newline)) (chars_of s) = true;
  pc_comment : nocomment None s = true;
  pc_after : after None s = None;
  pc_nesting : forall n, nesting None n s = Some n }.
Lemma after_app a : forall q r, after q (a ++ r) = after (after q a) r.
Proof. induction a as [|c a IH]; intros q r; [reflexivity|]. cbn. apply IH. Qed.
Lemma nocomment_app a : forall q r, nocomment q (a ++ r) = nocomment q a && nocomment (after q a) r.
Proof. induction a as [|c a IH]; intros q r; [reflexivity|]. cbn. rewrite IH. apply andb_assoc. Qed.
Lemma chars_app a b : chars_of (a ++ b) = chars_of a ++ chars_of b.
Proof. induction a as [|c a IH]; [reflexivity|]. cbn. rewrite IH. reflexivity. Qed.
Lemma piece_app a b : piece a -> piece b -> piece (a ++ b).
Proof.
  intros [A1 A2 A3 A4] [B1 B2 B3 B4]. split.
  - rewrite chars_app, forallb_app, A1, B1. reflexivity.
  - rewrite nocomment_app, A2, A3, B2. reflexivity.
  - rewrite after_app, A3. exact B3.
  - intros n. rewrite nesting_app, A4, A3. apply B4.
Qed.
Lemma piece_word k : word k = true -> piece k.
Proof.
  intros W. split; [apply word_lines; exact W|apply nocomment_word; [exact I|exact W]|apply after_word; [exact I|exact W]|].
  intros n. apply nesting_word; [exact I|exact W].
Qed.
Lemma piece_quoted k : word k = true -> piece ("'" ++ k ++ "'").
Proof.
  intros W. assert (F : fine (Some "'"%char)) by reflexivity. split.
  - rewrite !chars_app, !forallb_app, (word_lines k) by exact W. reflexivity.
  - rewrite nocomment_app. change (after None "'") with (Some "'"%char). rewrite nocomment_app, (nocomment_word _ k), (after_word _ k) by assumption. reflexivity.
  - rewrite after_app. change (after None "'") with (Some "'"%char). rewrite after_app, (after_word _ k) by assumption. reflexivity.
  - intros n. rewrite nesting_app. change (nesting None n "'") with (Some n). change (after None "'") with (Some "'"%char). cbv beta iota.
    rewrite nesting_app, (nesting_word _ _ k), (after_word _ k) by assumption. reflexivity.
Qed.
Lemma piece_join l : (forall s, In s l -> piece s) -> piece (join "," l).
Proof.
  induction l as [|a l IH]; intros H; [split; reflexivity|]. destruct l as [|b l]; [apply H; left; reflexivity|].
  change (join "," (a :: b :: l)) with (a ++ "," ++ join "," (b :: l))%string.
  apply piece_app; [apply H; left; reflexivity|]. apply piece_app; [split; reflexivity|]. apply IH. intros s Hs. apply H. right. exact Hs.
Qed.
Lemma piece_between a b m : piece m -> forallb (fun c => negb (Ascii.eqb c newline)) (chars_of (a ++ b)) = true ->
  nocomment None a = true -> after None a = None -> nesting None 0 a = Some 1 ->
  unbroken None b = true -> nesting None 1 b = Some 0 -> 
  unbroken None (a ++ m ++ b) = true /\ nesting None 0 (a ++ m ++ b) = Some 0.
Proof.
  intros [M1 M2 M3 M4] L A1 A2 A3 B1 B2. rewrite chars_app, forallb_app in L. apply andb_true_iff in L as [L1 L2]. split.
  - rewrite piece_unbroken, L1, A1, A2, piece_unbroken, M1, M2, M3, B1. reflexivity.
  - rewrite nesting_app, A3, A2, nesting_app, M4, M3. exact B2.
Qed.
Lemma manifold_oneline f p : ident f -> (forall c n, In (c, n) p -> ident c) -> oneline (manifold_code f p).
Proof.
  intros F P. unfold manifold_code.
  assert (M : piece (f ++ "," ++ partial_orders_text p)).
  { apply piece_app; [apply piece_word, F|]. apply piece_app; [split; reflexivity|]. apply piece_join. intros s Hs.
    apply in_map_iff in Hs as ([c n] & <- & H). cbn [fst snd].
    replace ("'" ++ c ++ "'," ++ str_nat n)%string with (("'" ++ c ++ "'") ++ ("," ++ str_nat n))%string by (rewrite !sapp_assoc; reflexivity).
    apply piece_app; [apply piece_quoted, (P c n H)|]. apply piece_app; [split; reflexivity|apply piece_word, word_nat]. }
  replace ("self.base_space.diff(" ++ f ++ "," ++ partial_orders_text p ++ ")")%string
    with ("self.base_space.diff(" ++ (f ++ "," ++ partial_orders_text p) ++ ")")%string by (rewrite !sapp_assoc; reflexivity).
  destruct (piece_between "self.base_space.diff(" ")" _ M) as [U B]; try reflexivity. split.
  - exact U.
  - exact B.
  - rewrite !trim_app by (rewrite ?blank_app; cbn; try apply andb_false_r; reflexivity). reflexivity.
  - reflexivity.
  - discriminate.
  - rewrite !colon_app; try discriminate; [reflexivity|]. apply not_empty_app. discriminate.
Qed.

Lemma oneline_store x e : ident x -> oneline e -> oneline (x ++ "[:] = " ++ e).
Proof.
  intros X O. pose proof X as [Ex Wx]. destruct (oneline_kept e O) as [Ke Be]. destruct O as [U B T Ind E C].
  destruct (oneline_after e U) as (Nc & Ae & _).
  assert (Bl : blank e = false).
  { destruct e as [|c e]; [contradiction|]. cbn [indent] in Ind. cbn [blank]. destruct (Ascii.eqb c " "); [discriminate|reflexivity]. }
  split.
  - rewrite piece_unbroken, word_lines, nocomment_word, after_word by (exact Wx || exact I). rewrite piece_unbroken. exact U.
  - rewrite nesting_app, nesting_word, after_word by (exact Wx || exact I). rewrite nesting_app. exact B.
  - rewrite trim_app by (rewrite blank_app, Bl; apply andb_false_r). rewrite trim_app, T by exact Bl. reflexivity.
  - apply ident_indent. exact X.
  - destruct x; [contradiction|discriminate].
  - rewrite !colon_app; [exact C|exact E|]. apply not_empty_app. exact E.
Qed.

Section Neat.
  Variables (enum : list sx -> list sx) (E : forall l, Permutation (enum l) l).
  Variables (S : pdes) (eqs : list equation) (class_name : string).
  Variables (print : sx -> string) (as_code : sx -> string -> list (string * nat) -> string).
  Hypothesis R : readable S class_name.
  Hypothesis Hp : forall ps q, pseudo_system enum S eqs = Ok ps -> In q ps -> oneline (print (snd q)).
  Hypothesis Hc : forall g v p, In (SDer g v) (s_derivatives S) -> partial_orders v = Ok p ->
    oneline (as_code (SDer g v) (function_keyvar g) p).

  Lemma trend_name_ident f : ident (function_keyvar f) -> ident (function_trend f).
  Proof. intros [_ W]. apply ident_d. exact W. Qed.
  Lemma mapM_In {A B} (f : A -> res B) l : forall bs b, mapM f l = Ok bs -> In b bs -> exists a, In a l /\ f a = Ok b.
  Proof.
    induction l as [|a l IH]; intros bs b H Hb; cbn [mapM] in H; [inversion H; subst; contradiction|].
    destruct (f a) as [b'|] eqn:F; [|discriminate]. cbn [bind] in H. destruct (mapM f l) as [bs'|]; [|discriminate]. cbn [bind] in H. inversion H; subst.
    destruct Hb as [<-|Hb]; [exists a; simpl; auto|]. destruct (IH bs' b eq_refl Hb) as (a' & I & Fa). exists a'. simpl; auto.
  Qed.
  Lemma subs_trend_values f x : dgetE sx_eq_dec f (subs_trend S) = Ok x -> exists g, In g (s_prognostic S) /\ x = function_trend g.
  Proof.
    unfold subs_trend, dgetE.
    assert (G : forall l d, incl l (s_prognostic S) -> (forall f x, dget sx_eq_dec f d = Some x -> exists g, In g (s_prognostic S) /\ x = function_trend g) ->
      forall f x, dget sx_eq_dec f (fold_left (fun d f => dset sx_eq_dec f (function_trend f) d) l d) = Some x -> exists g, In g (s_prognostic S) /\ x = function_trend g).
    { induction l as [|a l IH]; intros d I H; [exact H|]. cbn [fold_left]. apply IH; [intros y Hy; apply I; right; exact Hy|].
      intros f' x'. rewrite dget_dset. destruct (sx_eq_dec f' a); [|apply H]. intros X. inversion X. exists a. split; [apply I; left; reflexivity|reflexivity]. }
    destruct (dget sx_eq_dec f _) as [y|] eqn:D; [|discriminate]. intros X. inversion X; subst y.
    refine (G _ _ (incl_refl _) _ _ _ D). discriminate.
  Qed.
  Lemma neat_builder b : builder_of enum S eqs class_name print as_code = Ok b -> neat b.
  Proof.
    unfold builder_of. destruct (pseudo_system enum S eqs) as [ps|] eqn:Ps; [|discriminate]. cbn [bind].
    destruct (mapM (trend_text S print) ps) as [tr|] eqn:T; [|discriminate]. cbn [bind].
    destruct (mapM (meta_of_derivative as_code) (enum (s_derivatives S))) as [ds|] eqn:D; [|discriminate]. cbn [bind].
    intros X. inversion X; subst b. clear X.
    assert (P : forall l y, In y (enum l) -> In y l) by (intros l y; apply (Permutation_in y (E l))).
    split; cbn [b_class b_prognostic b_exogenous b_coordinates b_constants b_constant_functions b_derivatives b_trend].
    - apply (r_class _ _ R).
    - intros k d H. apply in_map_iff in H as (f & X & H). inversion X; subst. pose proof (r_prognostic _ _ R f H) as K. split; [exact K|apply trend_name_ident; exact K].
    - intros k H. apply in_map_iff in H as (f & <- & H). apply (r_exogenous _ _ R). auto.
    - intros k H. apply in_map_iff in H as (f & <- & H). apply (r_spatial _ _ R). auto.
    - intros k H. apply in_map_iff in H as (f & <- & H). apply (r_constants _ _ R). auto.
    - intros k H. apply in_map_iff in H as (f & <- & H). apply (r_constant _ _ R). auto.
    - intros k c H. destruct (mapM_In _ _ _ _ D H) as (d & Hd & Md). apply P in Hd. unfold meta_of_derivative in Md.
      destruct d as [| | | |g v| | | | |]; try discriminate. destruct (partial_orders v) as [p|] eqn:Po; [|discriminate]. cbn [bind] in Md. inversion Md; subst.
      split; [|exact (Hc g v p Hd Po)]. split; [discriminate|].
      assert (G : forall c n, In (c, n) p -> ident (function_keyvar g) /\ ident c) by (intros c n Hcn; exact (r_derivatives _ _ R g v c n Hd (orders_in v p c n Po Hcn))).
      destruct p as [|[c0 n0] p]; [destruct (orders_nonempty v [] Po eq_refl)|]. destruct (G c0 n0 (or_introl eq_refl)) as [[_ Wg] _].
      unfold derivative_name. rewrite word_app. change (word "D") with true. cbn [andb]. rewrite word_app. unfold function_keyvar in Wg. rewrite Wg. cbn [andb].
      rewrite word_app. change (word "_") with true. cbn [andb]. apply word_join. intros s Hs. apply in_map_iff in Hs as ([c n] & <- & H'). cbn [fst snd].
      rewrite !word_app, word_nat. destruct (G c n H') as [_ [_ Wc]]. rewrite Wc. reflexivity.
    - intros l H. destruct (mapM_In _ _ _ _ T H) as (q & Hq & Tq). unfold trend_text in Tq.
      destruct (fst q) as [| | | |f v| | | | |]; try discriminate. destruct (dgetE sx_eq_dec f (subs_trend S)) as [x|] eqn:Dx; [|discriminate]. cbn [bind] in Tq.
      inversion Tq; subst l. destruct (subs_trend_values f x Dx) as (g & Hg & ->). apply oneline_store; [|exact (Hp ps q eq_refl Hq)].
      apply trend_name_ident. exact (r_prognostic _ _ R g Hg).
  Qed.
  Lemma stores_builder b : builder_of enum S eqs class_name print as_code = Ok b -> forall l, In l (b_trend b) -> stores l.
  Proof.
    unfold builder_of. destruct (pseudo_system enum S eqs) as [ps|] eqn:Ps; [|discriminate]. cbn [bind].
    destruct (mapM (trend_text S print) ps) as [tr|] eqn:T; [|discriminate]. cbn [bind].
    destruct (mapM (meta_of_derivative as_code) (enum (s_derivatives S))) as [ds|] eqn:D; [|discriminate]. cbn [bind].
    intros X. inversion X; subst b. clear X. cbn [b_trend]. intros l H. destruct (mapM_In _ _ _ _ T H) as (q & Hq & Tq). unfold trend_text in Tq.
    destruct (fst q) as [| | | |f v| | | | |]; try discriminate. destruct (dgetE sx_eq_dec f (subs_trend S)) as [x|] eqn:Dx; [|discriminate]. cbn [bind] in Tq.
    inversion Tq; subst l. destruct (subs_trend_values f x Dx) as (g & Hg & ->). exists (function_trend g), (print (snd q)). split; [|reflexivity].
    apply trend_name_ident. exact (r_prognostic _ _ R g Hg).
  Qed.
End Neat.

Lemma trend_in_FD b : trend_in (module_FD b) (trend_statements b).
Proof.
  eexists (module_head b ++ constructor_head_FD ++ constructor_tail b ++ index_method), _. unfold module_FD, trend_method.
  rewrite <- !app_assoc. cbn [app]. reflexivity.
Qed.
Lemma trend_in_Manifold b : trend_in (module_Manifold b) (trend_statements b).
Proof.
  eexists (module_head b ++ constructor_head_Manifold ++ constructor_tail b), _. unfold module_Manifold, trend_method.
  rewrite <- !app_assoc. cbn [app]. reflexivity.
Qed.
