From Coq Require Import List Arith ZArith QArith Bool Ascii String DecimalString Lia DecimalNat DecimalZ.
From Verif Require Import PyBase PyBaseFacts StrModel StrSpec.
Import ListNotations.
Close Scope Q_scope.
Open Scope string_scope.
Open Scope list_scope.
Open Scope nat_scope.

(** ** basic facts *)
Lemma sapp_assoc (a b c : string) : ((a ++ b) ++ c = a ++ (b ++ c))%string.
Proof. induction a; simpl; congruence. Qed.
Lemma sapp_nil (a : string) : (a ++ "" = a)%string.
Proof. induction a; simpl; congruence. Qed.
Lemma chars_app a b : chars (a ++ b)%string = chars a ++ chars b.
Proof. induction a; simpl; congruence. Qed.
Lemma of_chars_app a b : of_chars (a ++ b) = (of_chars a ++ of_chars b)%string.
Proof. induction a; simpl; congruence. Qed.
Lemma of_chars_chars s : of_chars (chars s) = s.
Proof. induction s; simpl; congruence. Qed.
Lemma chars_of_chars l : chars (of_chars l) = l.
Proof. induction l; simpl; congruence. Qed.
Lemma chars_inj a b : chars a = chars b -> a = b.
Proof. intros H. rewrite <- (of_chars_chars a), <- (of_chars_chars b), H. auto. Qed.
Lemma sapp_inv_head (a b c : string) : (a ++ b = a ++ c)%string -> b = c.
Proof. induction a; simpl; intros H; auto. inversion H. auto. Qed.
Lemma slen_app a b : String.length (a ++ b)%string = String.length a + String.length b.
Proof. induction a; simpl; auto. Qed.
Lemma sconcat_app a b : sconcat (a ++ b) = (sconcat a ++ sconcat b)%string.
Proof. induction a; simpl; auto. rewrite IHa, sapp_assoc. auto. Qed.

Lemma starts_spec p s : starts p s = true <-> exists r, s = (p ++ r)%string.
Proof.
  revert s. induction p as [|a p IH]; intros s; simpl.
  - split; eauto.
  - destruct s as [|b s]; [split; [discriminate|intros [r H]; discriminate]|].
    destruct (ascii_dec a b) as [->|N].
    + rewrite IH. split; intros [r H]; exists r; [congruence|inversion H; auto].
    + split; [discriminate|]. intros [r H]. inversion H. congruence.
Qed.
Lemma starts_app p r : starts p (p ++ r)%string = true.
Proof. apply starts_spec. eauto. Qed.

(** ** one-character patterns *)
Lemma replace_char c new s :
  replace (String c "") new s = sconcat (map (fun d => if ascii_dec c d then new else String d "") (chars s)).
Proof.
  unfold replace. induction s as [|d s IH]; [reflexivity|].
  cbn [replace_from chars map sconcat starts String.length Nat.sub].
  destruct (ascii_dec c d) as [->|N].
  - cbn. rewrite IH. reflexivity.
  - rewrite IH. reflexivity.
Qed.

Definition nchar (c : ascii) : list ascii :=
  if existsb (Ascii.eqb c) [ascii_of_nat 92; "{"%char; "}"%char] then []
  else if existsb (Ascii.eqb c) ["^"%char; ","%char] then ["_"%char] else [c].

Lemma replace_char_flat c new s :
  replace (String c "") new s = of_chars (flat_map (fun d => if ascii_dec c d then chars new else [d]) (chars s)).
Proof.
  rewrite replace_char. induction (chars s) as [|d l IH]; [reflexivity|]. cbn [map sconcat flat_map].
  rewrite of_chars_app, IH. f_equal. destruct (ascii_dec c d); [rewrite of_chars_chars|]; reflexivity.
Qed.
Lemma flat_map_flat_map {A B C} (f : A -> list B) (g : B -> list C) l :
  flat_map g (flat_map f l) = flat_map (fun x => flat_map g (f x)) l.
Proof. induction l; simpl; auto. rewrite flat_map_app, IHl. auto. Qed.

Lemma flat_map_ext' {A B} (f g : A -> list B) l : (forall a, f a = g a) -> flat_map f l = flat_map g l.
Proof. intros H. induction l; simpl; auto. rewrite H, IHl. auto. Qed.

Lemma clean_norm s : clean_latex_name s = norm s.
Proof.
  unfold clean_latex_name, backslash. cbv zeta. rewrite !replace_char_flat, !chars_of_chars.
  unfold norm. f_equal. rewrite !flat_map_flat_map. apply flat_map_ext'. intros c.
  destruct (ascii_dec (ascii_of_nat 92) c) as [<-|N1]; [reflexivity|].
  destruct (ascii_dec "{" c) as [<-|N2]; [reflexivity|].
  destruct (ascii_dec "}" c) as [<-|N3]; [reflexivity|].
  destruct (ascii_dec "^" c) as [<-|N4]; [reflexivity|].
  destruct (ascii_dec "," c) as [<-|N5]; [reflexivity|].
  assert (E : forall d, d <> c -> Ascii.eqb c d = false).
  { intros d H. apply Ascii.eqb_neq. congruence. }
  cbn [flat_map app]. unfold existsb. rewrite !E by auto. cbn [orb flat_map app].
  destruct (ascii_dec "{" c); [congruence|]. cbn [flat_map app].
  destruct (ascii_dec "}" c); [congruence|]. cbn [flat_map app].
  destruct (ascii_dec "^" c); [congruence|]. cbn [flat_map app].
  destruct (ascii_dec "," c); [congruence|]. reflexivity.
Qed.

Definition special : list ascii := [ascii_of_nat 92; "{"%char; "}"%char; "^"%char; ","%char].

Lemma nchar_special c d : In d (nchar c) -> ~ In d special.
Proof.
  unfold nchar. intros H.
  destruct (existsb (Ascii.eqb c) [ascii_of_nat 92; "{"%char; "}"%char]) eqn:E1; [destruct H|].
  destruct (existsb (Ascii.eqb c) ["^"%char; ","%char]) eqn:E2.
  - destruct H as [<-|[]]. unfold special. simpl. intuition discriminate.
  - destruct H as [<-|[]]. intros I.
    assert (F : existsb (Ascii.eqb c) ([ascii_of_nat 92; "{"%char; "}"%char] ++ ["^"%char; ","%char]) = true).
    { apply existsb_exists. exists c. split; auto. apply Ascii.eqb_refl. }
    rewrite existsb_app, E1, E2 in F. discriminate.
Qed.
Lemma nchar_id c : ~ In c special -> nchar c = [c].
Proof.
  intros H. unfold nchar.
  assert (F : forall l, (forall d, In d l -> In d special) -> existsb (Ascii.eqb c) l = false).
  { intros l Hl. destruct (existsb (Ascii.eqb c) l) eqn:E; auto. apply existsb_exists in E.
    destruct E as (d & I & Ed). apply Ascii.eqb_eq in Ed. subst. exfalso. auto. }
  rewrite !F; auto; unfold special; simpl; tauto.
Qed.
Lemma norm_special s c : In c (chars (norm s)) -> ~ In c special.
Proof.
  unfold norm. rewrite chars_of_chars. intros H. apply in_flat_map in H. destruct H as (d & _ & H). exact (nchar_special d c H).
Qed.
Lemma norm_fix s : (forall c, In c (chars s) -> ~ In c special) -> norm s = s.
Proof.
  intros H. apply chars_inj. unfold norm. rewrite chars_of_chars.
  change (flat_map nchar (chars s) = chars s).
  induction (chars s) as [|c l IH]; [reflexivity|]. cbn [flat_map].
  rewrite nchar_id by (apply H; left; auto). cbn. f_equal. apply IH. intros d Hd. apply H. right; auto.
Qed.

(** ** token replacement *)
Lemma ident_chars_app_sep old s' rest :
  (forall c, In c (chars old) -> is_ident c = true) ->
  (match rest with EmptyString => True | String c _ => is_ident c = false end) ->
  starts old (s' ++ rest)%string = true -> exists r, s' = (old ++ r)%string.
Proof.
  revert s'. induction old as [|a old IH]; intros s' Ho Hr H; [exists s'; reflexivity|].
  destruct s' as [|b s'].
  - simpl in H. destruct rest as [|c rest]; [discriminate H|]. destruct (ascii_dec a c) as [->|]; [|discriminate H].
    exfalso. rewrite (Ho c (or_introl eq_refl)) in Hr. discriminate.
  - simpl in H. destruct (ascii_dec a b) as [->|]; [|discriminate H].
    destruct (IH s') as [r ->]; auto; [intros; apply Ho; right; auto|]. exists r. reflexivity.
Qed.

Lemma replace_skip old new s : forall k r, String.length s = k -> replace_from old new (s ++ r) k = replace_from old new r 0.
Proof. induction s as [|c s IH]; intros k r <-; simpl; [destruct r; reflexivity|apply IH; reflexivity]. Qed.

Lemma replace_pass old new s rest :
  (forall c, In c (chars old) -> is_ident c = true) ->
  (match rest with EmptyString => True | String c _ => is_ident c = false end) ->
  ~ infix old s -> replace_from old new (s ++ rest) 0 = (s ++ replace_from old new rest 0)%string.
Proof.
  intros Ho Hr. induction s as [|c s IH]; intros Hi; [reflexivity|].
  cbn [append replace_from].
  destruct (starts old (String c (s ++ rest))) eqn:E.
  - exfalso. change (String c (s ++ rest)) with (String c s ++ rest)%string in E.
    apply ident_chars_app_sep in E; auto. destruct E as [r E]. apply Hi. exists "", r. rewrite E. reflexivity.
  - f_equal. apply IH. intros (a & b & ->). apply Hi. exists (String c a), b. reflexivity.
Qed.

Lemma text_boundary ts : wf_tokens ts -> match ts with Id _ :: _ => False | _ => True end ->
  match text ts with EmptyString => True | String c _ => is_ident c = false end.
Proof. destruct ts as [|[s|c] r]; simpl; tauto. Qed.

Lemma replace_tokens old new ts : ident old -> wf_tokens ts ->
  (forall s, In (Id s) ts -> infix old s -> s = old) ->
  replace old new (text ts) = sconcat (map (fun t => match t with Sep c => String c "" | Id s => if String.eqb s old then new else s end) ts).
Proof.
  intros [Hne Ho]. unfold replace. induction ts as [|t r IH]; intros Hw Hi; [reflexivity|].
  destruct t as [s|c].
  - destruct Hw as (Hs & Hb & Hw). cbn [text map tok_text sconcat]. fold (text r).
    specialize (IH Hw (fun s' I => Hi s' (or_intror I))).
    destruct (String.eqb s old) eqn:E.
    + apply String.eqb_eq in E. subst s. rewrite <- IH.
      destruct old as [|a old]; [congruence|]. cbn [append replace_from].
      change (String a (old ++ text r)) with (String a old ++ text r)%string. rewrite starts_app. f_equal.
      apply replace_skip. simpl. lia.
    + apply String.eqb_neq in E. change (sconcat (map tok_text r)) with (text r). rewrite <- IH. apply replace_pass; auto.
      * apply text_boundary; auto.
      * intros I. apply E. apply Hi; auto. left; auto.
  - destruct Hw as (Hc & Hw). cbn [text map tok_text sconcat]. fold (text r). cbn [append].
    specialize (IH Hw (fun s' I => Hi s' (or_intror I))). rewrite <- IH. cbn [replace_from].
    destruct old as [|a old]; [congruence|]. cbn [starts].
    destruct (ascii_dec a c) as [->|]; [|reflexivity].
    rewrite (Ho c (or_introl eq_refl)) in Hc. discriminate.
Qed.

(** the coding rule as tokens *)
Definition rule_tokens (c : string) : list token :=
  [Id "self"; Sep "."; Id "dx"; Sep "["; Id "self"; Sep "."; Id "coordinates"; Sep "."; Id "index"; Sep "(";
   Sep "'"; Id c; Sep "'"; Sep ")"; Sep "]"].
Lemma rule_text c : text (rule_tokens c) = fd_dx_rule c.
Proof. unfold text, rule_tokens, fd_dx_rule. cbn. reflexivity. Qed.

Definition step_tokens (c : string) (ts : list token) : list token :=
  flat_map (fun t => match t with Id s => if String.eqb s ("d" ++ c) then rule_tokens c else [t] | Sep _ => [t] end) ts.

Lemma text_app a b : text (a ++ b) = (text a ++ text b)%string.
Proof. unfold text. rewrite map_app, sconcat_app. auto. Qed.

Lemma text_step c ts :
  text (step_tokens c ts) = sconcat (map (fun t => match t with Sep d => String d "" | Id s => if String.eqb s ("d" ++ c) then fd_dx_rule c else s end) ts).
Proof.
  induction ts as [|t r IH]; [reflexivity|]. cbn [step_tokens flat_map map sconcat]. rewrite text_app. f_equal; [|exact IH].
  destruct t as [s|d]; [destruct (String.eqb s ("d" ++ c)); [apply rule_text|]|];
    unfold text; cbn [map tok_text sconcat]; apply sapp_nil.
Qed.

Lemma wf_app_sep ts r : wf_tokens r -> wf_tokens ts -> (match r with Id _ :: _ => False | _ => True end) ->
  wf_tokens (ts ++ r).
Proof.
  intros Hr. induction ts as [|t ts IH]; intros Hw Hb; auto.
  destruct t as [s|c]; simpl in *.
  - destruct Hw as (A & B & C). split; auto. split; auto. destruct ts as [|[]]; simpl; auto.
  - destruct Hw; auto.
Qed.

Lemma ident_b s : negb (String.eqb s "") && forallb is_ident (chars s) = true -> ident s.
Proof.
  intros H. apply andb_true_iff in H. destruct H as [A B]. split.
  - intros ->. discriminate.
  - apply forallb_forall. exact B.
Qed.
Lemma wf_rule c : ident c -> wf_tokens (rule_tokens c).
Proof.
  intros Hc. unfold rule_tokens. cbn [wf_tokens].
  repeat (split; [first [reflexivity|exact Hc|exact Logic.I|apply ident_b; reflexivity]|]). exact Logic.I.
Qed.
Lemma wf_step c ts : ident c -> wf_tokens ts -> wf_tokens (step_tokens c ts).
Proof.
  intros Hc. 
  induction ts as [|t r IH]; intros Hw; [exact Logic.I|].
  assert (B : match r with Id _ :: _ => False | _ => True end -> match step_tokens c r with Id _ :: _ => False | _ => True end).
  { destruct r as [|[s|d] r]; simpl; tauto. }
  cbn [step_tokens flat_map]. fold (step_tokens c r). destruct t as [s|d].
  - destruct Hw as (A & Hb & Hw). destruct (String.eqb s ("d" ++ c)).
    + apply wf_app_sep; [apply IH; auto|apply wf_rule; auto|apply B; auto].
    + cbn [app wf_tokens]. split; [exact A|split; [apply B; auto|apply IH; auto]].
  - destruct Hw as (A & Hw). cbn [app wf_tokens]. split; [exact A|apply IH; auto].
Qed.

Definition token_dec (a b : token) : {a = b} + {a <> b}.
Proof. decide equality; [apply string_dec|apply ascii_dec]. Defined.

Definition rule_words (c : string) : list string := ["self"; "dx"; "coordinates"; "index"; c].

Definition safe_order (loc : list string) (ts : list token) : Prop :=
  forall l1 c l2 c' w, loc = l1 ++ c :: l2 -> In (Id ("d" ++ c)%string) ts -> In c' l2 ->
    In w (rule_words c) -> ~ infix ("d" ++ c') w.

Lemma In_step s c ts : In (Id s) (step_tokens c ts) -> In s (rule_words c) \/ (In (Id s) ts /\ s <> ("d" ++ c)%string).
Proof.
  unfold step_tokens. intros H. apply in_flat_map in H. destruct H as ([s'|d] & I & H).
  - destruct (String.eqb s' ("d" ++ c)) eqn:E.
    + left. unfold rule_tokens in H. simpl in H. unfold rule_words. simpl.
      repeat (destruct H as [H|H]; [first [discriminate|inversion H; subst; tauto]|]). destruct H.
    + apply String.eqb_neq in E. destruct H as [H|[]]. inversion H; subst. auto.
  - destruct H as [H|[]]. discriminate.
Qed.

Lemma ident_d c : ident c -> ident ("d" ++ c)%string.
Proof. intros [N H]. split; [discriminate|]. intros a [<-|I]; [reflexivity|auto]. Qed.

Lemma find_none_id loc s : (forall c, In c loc -> s <> ("d" ++ c)%string) ->
  find (fun c => String.eqb s ("d" ++ c)) loc = None.
Proof.
  induction loc as [|c loc IH]; intros H; [reflexivity|]. cbn [find].
  destruct (String.eqb s ("d" ++ c)) eqn:E; [apply String.eqb_eq in E; exfalso; apply (H c); [left|]; auto|].
  apply IH. intros c' I. apply H. right; auto.
Qed.

Lemma step_tokens_id c ts : ~ In (Id ("d" ++ c)%string) ts -> step_tokens c ts = ts.
Proof.
  induction ts as [|t r IH]; intros H; [reflexivity|]. cbn [step_tokens flat_map]. fold (step_tokens c r).
  rewrite IH by (intros I; apply H; right; auto). destruct t as [s|d]; [|reflexivity].
  destruct (String.eqb s ("d" ++ c)) eqn:E; [|reflexivity]. apply String.eqb_eq in E. subst. exfalso. apply H. left; auto.
Qed.

Lemma replace_spacings_tokens loc : NoDup loc -> Forall ident loc -> forall ts, safe_order loc ts -> wf_tokens ts ->
  (forall c s, In c loc -> In (Id s) ts -> infix ("d" ++ c) s -> s = ("d" ++ c)%string) ->
  replace_spacings fd_dx_rule loc (text ts) = subst_tokens loc fd_dx_rule ts.
Proof.
  induction loc as [|c loc IH]; intros ND Hid ts Hso Hw Hi.
  - unfold subst_tokens. cbn. unfold text. f_equal.
  - inversion ND; subst. inversion Hid; subst.
    assert (Hs : In (Id ("d" ++ c)%string) ts -> forall c' w, In c' loc -> In w (rule_words c) -> ~ infix ("d" ++ c') w).
    { intros I c' w Ic' Iw. apply (Hso [] c loc c' w eq_refl I Ic' Iw). }
    unfold replace_spacings in *. cbn [fold_left].
    rewrite (replace_tokens ("d" ++ c) (fd_dx_rule c) ts); auto.
    2: { apply ident_d; auto. } 2: { intros s I. apply Hi; [left; auto|auto]. }
    rewrite <- text_step. rewrite IH; auto.
    + unfold subst_tokens, step_tokens.
      assert (G : forall l, (forall t, In t l -> In t ts) ->
        sconcat (map (fun t => match t with Id s => match find (fun c0 => String.eqb s ("d" ++ c0)) loc with
             Some c0 => fd_dx_rule c0 | None => s end | Sep c0 => String c0 "" end)
          (flat_map (fun t => match t with Id s => if String.eqb s ("d" ++ c) then rule_tokens c else [t] | Sep _ => [t] end) l))
        = sconcat (map (fun t => match t with Id s => match find (fun c0 => String.eqb s ("d" ++ c0)) (c :: loc) with
             Some c0 => fd_dx_rule c0 | None => s end | Sep c0 => String c0 "" end) l)).
      { induction l as [|t r IHr]; intros Hl; [reflexivity|]. cbn [flat_map map sconcat]. rewrite map_app, sconcat_app.
        rewrite IHr by (intros; apply Hl; right; auto). f_equal.
        destruct t as [s|d].
        - cbn [find]. destruct (String.eqb s ("d" ++ c)) eqn:E.
          + apply String.eqb_eq in E.
            assert (Ic : In (Id ("d" ++ c)%string) ts) by (rewrite <- E; apply Hl; left; auto).
            rewrite <- rule_text.
            assert (Q : forall l, (forall s, In (Id s) l -> In s (rule_words c)) ->
             sconcat (map (fun t => match t with Id s0 => match find (fun c0 => String.eqb s0 ("d" ++ c0)) loc with
                Some c0 => fd_dx_rule c0 | None => s0 end | Sep c0 => String c0 "" end) l) = text l).
            { clear IHr Hl. intros l Hl. unfold text. f_equal. apply map_ext_in. intros [s0|c0] I; [|reflexivity].
              rewrite find_none_id; [reflexivity|]. intros c' Ic' Es. apply (Hs Ic c' s0 Ic' (Hl s0 I)).
              exists "", "". rewrite sapp_nil. subst. reflexivity. }
            apply Q. intros s0 I. unfold rule_tokens in I. simpl in I. unfold rule_words. simpl.
            repeat (destruct I as [I|I]; [first [discriminate|inversion I; subst; tauto]|]). destruct I.
          + cbn [map sconcat]. apply sapp_nil.
        - cbn [map sconcat]. reflexivity. }
      apply G. auto.
    + intros l1 c1 l2 c' w E I0 Ic' Iw. pose proof I0 as I. apply In_step in I. destruct I as [I|[I N]].
      * destruct (in_dec token_dec (Id ("d" ++ c)%string) ts) as [J|J].
        -- exfalso. apply (Hs J c1 ("d" ++ c1)%string); auto.
           ++ rewrite E. apply in_or_app. right; left; auto.
           ++ exists "", "". rewrite sapp_nil. reflexivity.
        -- apply (Hso (c :: l1) c1 l2 c' w); auto; [rewrite E; reflexivity|].
           rewrite (step_tokens_id c ts J) in I0. exact I0.
      * apply (Hso (c :: l1) c1 l2 c' w); auto. rewrite E. reflexivity.
    + apply wf_step; auto.
    + intros c' s Ic' Is Hin. destruct (in_dec token_dec (Id ("d" ++ c)%string) ts) as [J|J].
      * apply In_step in Is. destruct Is as [Is|[Is N]].
        -- exfalso. eapply (Hs J); eauto.
        -- apply Hi; auto. right; auto.
      * rewrite (step_tokens_id c ts J) in Is. apply Hi; auto. right; auto.
Qed.
