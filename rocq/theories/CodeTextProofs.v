From Coq Require Import List Arith ZArith QArith Bool Ascii String Lia Permutation.
From Verif Require Import PyBase PyBaseFacts StrModel StrSpec StrProofs StrMore CodeTextModel CodeTextSpec.
Import ListNotations.
Close Scope Q_scope.
Open Scope string_scope.
Open Scope list_scope.
Open Scope nat_scope.

(** ** strings *)
Lemma split_eq (a b c d : string) : (a ++ b = c ++ d)%string ->
  (exists m, a = (c ++ m)%string /\ d = (m ++ b)%string) \/ (exists m, c = (a ++ m)%string /\ b = (m ++ d)%string).
Proof.
  revert c. induction a as [|x a IH]; intros c H.
  - right. exists c. auto.
  - destruct c as [|y c].
    + left. exists (String x a). auto.
    + cbn [append] in H. inversion H as [[E H']]. destruct (IH _ H') as [(m & A & B)|(m & A & B)].
      * left. exists m. subst. auto.
      * right. exists m. subst. auto.
Qed.

Lemma delim (P : ascii -> bool) a b x y r s :
  (a ++ String x r = b ++ String y s)%string -> (forall c, In c (chars a) -> P c = false) -> (forall c, In c (chars b) -> P c = false) ->
  P x = true -> P y = true -> a = b /\ x = y /\ r = s.
Proof.
  intros E Ha Hb Hx Hy. revert b Hb E. induction a as [|c a IH]; intros b Hb E.
  - destruct b as [|d b].
    + cbn [append] in E. inversion E. auto.
    + cbn [append] in E. inversion E. subst d. rewrite (Hb x) in Hx by (left; auto). discriminate.
  - destruct b as [|d b].
    + cbn [append] in E. inversion E. subst c. rewrite (Ha y) in Hy by (left; auto). discriminate.
    + cbn [append] in E. inversion E as [[Ec E']]. subst d.
      destruct (IH (fun e I => Ha e (or_intror I)) b (fun e I => Hb e (or_intror I)) E') as (A & B & C). subst. auto.
Qed.

Lemma sapp_eq_nil (a b : string) : (a ++ b = "")%string -> a = "" /\ b = "".
Proof. destruct a; cbn; intros H; [auto|discriminate]. Qed.
Lemma sapp_self (p n : string) : (p ++ n = n)%string -> p = "".
Proof.
  intros H. assert (L : String.length (p ++ n)%string = String.length n) by (rewrite H; auto).
  rewrite slen_app in L. destruct p; [auto|cbn in L; lia].
Qed.

Fixpoint suffix_dec (n m : string) : {p | m = (p ++ n)%string} + {forall p, m <> (p ++ n)%string}.
Proof.
  destruct (string_dec m n) as [E|E].
  - left. exists "". auto.
  - destruct m as [|c m].
    + right. intros p H. symmetry in H. destruct (sapp_eq_nil _ _ H) as [-> ->]. congruence.
    + destruct (suffix_dec n m) as [(p & H)|H].
      * left. exists (String c p). cbn. congruence.
      * right. intros p Hp. destruct p as [|d p]; [cbn in Hp; congruence|].
        cbn in Hp. inversion Hp. eapply H; eauto.
Defined.

Definition never (old s rest : string) : Prop :=
  forall b s', s = (b ++ s')%string -> s' <> "" -> starts old (s' ++ rest)%string = false.

Lemma pass old new s rest : never old s rest ->
  replace_from old new (s ++ rest) 0 = (s ++ replace_from old new rest 0)%string.
Proof.
  induction s as [|c s IH]; intros H; [reflexivity|].
  pose proof (H "" (String c s) eq_refl ltac:(discriminate)) as H0. cbn [append] in H0.
  cbn [append replace_from]. rewrite H0. f_equal. apply IH. intros b s' E N. apply (H (String c b) s'); cbn; congruence.
Qed.
Lemma hit old new rest : old <> "" ->
  replace_from old new (old ++ rest) 0 = (new ++ replace_from old new rest 0)%string.
Proof.
  intros N. destruct old as [|c old]; [congruence|]. cbn [append replace_from].
  change (String c (old ++ rest)) with (String c old ++ rest)%string.
  rewrite starts_app. f_equal. cbn [String.length]. apply replace_skip. lia.
Qed.
Lemma starts_false old s : (forall r, s <> (old ++ r)%string) -> starts old s = false.
Proof.
  intros H. destruct (starts old s) eqn:E; auto. apply starts_spec in E. destruct E as [r E]. exfalso. exact (H r E).
Qed.

Definition parenb (c : ascii) : bool := Ascii.eqb c "(" || Ascii.eqb c ")".
Definition no_paren (s : string) : Prop := forall c, In c (chars s) -> parenb c = false.

Lemma sep_paren s : (forall c, In c (chars s) -> name_sep c = false) -> no_paren s.
Proof.
  intros H c I. specialize (H c I). unfold name_sep in H. cbn [existsb] in H. unfold parenb.
  apply orb_false_iff in H. destruct H as [A H]. apply orb_false_iff in H. destruct H as [B _]. rewrite A, B. auto.
Qed.
Lemma args_paren f : plain_function f -> no_paren (args_text f).
Proof.
  intros (_ & _ & H) c I. destruct (H c I) as (A & B & _). unfold parenb.
  destruct (Ascii.eqb_spec c "("); [congruence|]. destruct (Ascii.eqb_spec c ")"); [congruence|]. auto.
Qed.
Lemma name_paren f : plain_function f -> no_paren (pf_name f).
Proof. intros (_ & H & _). apply sep_paren; auto. Qed.

Lemma in_chars_app c a b : In c (chars (a ++ b)%string) <-> In c (chars a) \/ In c (chars b).
Proof. rewrite chars_app. apply in_app_iff. Qed.
Lemma no_paren_r a b : no_paren (a ++ b)%string -> no_paren b.
Proof. intros H c I. apply H. apply in_chars_app. auto. Qed.

Section One.
  Variable f : pfun.
  Hypothesis Hf : plain_function f.
  Let n := pf_name f.
  Let a := args_text f.
  Let old := str_function f.

  Lemma old_eq r : (old ++ r = n ++ String "(" (a ++ String ")" r))%string.
  Proof. unfold old, str_function, n, a. cbn [append]. rewrite !sapp_assoc. cbn [append]. rewrite sapp_assoc. reflexivity. Qed.
  Lemma old_ne : old <> "".
  Proof. unfold old, str_function. destruct Hf as (N & _). destruct (pf_name f); [congruence|discriminate]. Qed.

  (** a text whose first parenthesis closes *)
  Lemma closing m s r : no_paren m -> (m ++ String ")" s)%string <> (old ++ r)%string.
  Proof.
    intros Hm E. rewrite old_eq in E.
    destruct (delim parenb _ _ _ _ _ _ E Hm (name_paren f Hf) eq_refl eq_refl) as (_ & C & _). discriminate.
  Qed.

  (** an opening parenthesis must follow the name, and the arguments follow *)
  Lemma opening q s r : no_paren q -> (q ++ String "(" s = old ++ r)%string -> q = n /\ s = (a ++ String ")" r)%string.
  Proof.
    intros Hq E. rewrite old_eq in E.
    destruct (delim parenb _ _ _ _ _ _ E Hq (name_paren f Hf) eq_refl eq_refl) as (A & _ & C). auto.
  Qed.

  (** ** functions not to be replaced *)
  Lemma never_function g rest : plain_function g ->
    (args_text g = a -> forall p, pf_name g <> (p ++ n)%string) -> never old (str_function g) rest.
  Proof.
    intros Hg Hn b s' E N. apply starts_false. intros r H.
    unfold str_function in E.
    destruct (split_eq _ _ _ _ E) as [(m & A & B)|(m & A & B)].
    - rewrite B in H. rewrite sapp_assoc in H. cbn [append] in H. rewrite sapp_assoc in H. cbn [append] in H.
      assert (Pm : no_paren m). { apply (no_paren_r b). rewrite <- A. apply name_paren; auto. }
      destruct (opening _ _ _ Pm H) as [Q S]. subst m.
      destruct (delim parenb _ _ _ _ _ _ S (args_paren g Hg) (args_paren f Hf) eq_refl eq_refl) as (S1 & _ & _).
      exact (Hn S1 b A).
    - change ("(" ++ args_text g ++ ")")%string with (String "(" (args_text g ++ ")")) in B.
      destruct m as [|c m].
      + cbn [append] in B. subst s'. cbn [append] in H.
        destruct (opening "" _ _ ltac:(intros c []) H) as [Q _]. destruct Hf as (Q' & _). unfold n in Q. congruence.
      + cbn [append] in B. inversion B as [[C B']]. clear B C.
        destruct (split_eq _ _ _ _ B') as [(k & A' & D)|(k & A' & D)].
        * subst s'. rewrite sapp_assoc in H. cbn [append] in H. revert H. apply closing.
          apply (no_paren_r m). rewrite <- A'. apply args_paren; auto.
        * destruct k as [|e k].
          -- cbn [append] in D. subst s'. cbn [append] in H. revert H. apply (closing ""). intros c0 [].
          -- cbn [append] in D. inversion D as [[C0 D']]. symmetry in D'. apply sapp_eq_nil in D'. destruct D'. congruence.
  Qed.

  (** ** literals *)
  Lemma never_literal l rest : ~ infix (n ++ "(") l -> (rest = "" \/ l = "" \/ ends_sep l) -> never old l rest.
  Proof.
    intros Hi Hb b s' E N. apply starts_false. intros r H. rewrite old_eq in H.
    replace (n ++ String "(" (a ++ String ")" r))%string with ((n ++ "(") ++ (a ++ String ")" r))%string in H
      by (rewrite sapp_assoc; reflexivity).
    destruct (split_eq _ _ _ _ H) as [(m & A & B)|(m & A & B)].
    - apply Hi. exists b, m. rewrite <- A. auto.
    - destruct Hb as [->|[->|Hb]].
      + symmetry in B. apply sapp_eq_nil in B. destruct B as [_ B]. symmetry in B. destruct a; discriminate.
      + symmetry in E. apply sapp_eq_nil in E. destruct E as [_ E]. congruence.
      + destruct Hb as (l' & c & El & Sc). rewrite E in El.
        assert (X : In c (chars s')).
        { destruct (split_eq _ _ _ _ El) as [(k & A1 & A2)|(k & A1 & A2)].
          - destruct k as [|d k]; [cbn in A2; rewrite <- A2; left; auto|]. exfalso.
            cbn in A2. inversion A2 as [[D1 D2]]. symmetry in D2. apply sapp_eq_nil in D2. destruct D2. congruence.
          - rewrite A2. apply in_chars_app. right. left. auto. }
        destruct m as [|d m].
        * apply Hi. exists b, "". rewrite !sapp_nil. rewrite A, sapp_nil. auto.
        * assert (I : In c (chars n)).
          { destruct (split_eq _ _ _ _ A) as [(k & A1 & A2)|(k & A1 & A2)].
            - rewrite A1. apply in_chars_app. auto.
            - destruct k as [|e k]; [rewrite sapp_nil in A1; rewrite <- A1; auto|].
              cbn in A2. inversion A2 as [[D1 D2]]. symmetry in D2. apply sapp_eq_nil in D2. destruct D2. discriminate. }
          destruct Hf as (_ & Hs & _). rewrite (Hs c I) in Sc. discriminate.
  Qed.

  (** ** codes *)
  Lemma never_head h rest : (forall c, In c (chars h) -> name_sep c = false) -> begins_sep rest -> never old h rest.
  Proof.
    intros Hh Hb b s' E N. apply starts_false. intros r H. rewrite old_eq in H.
    assert (Hs : forall c, In c (chars s') -> name_sep c = false).
    { intros c I. apply Hh. rewrite E. apply in_chars_app. auto. }
    destruct rest as [|x rest].
    - rewrite sapp_nil in H. assert (I : In "("%char (chars s')).
      { rewrite H. apply in_chars_app. right. left. auto. }
      specialize (Hs _ I). discriminate.
    - destruct Hb as [Sx Nx]. destruct Hf as (_ & Hn & _).
      destruct (delim name_sep _ _ _ _ _ _ H Hs Hn Sx eq_refl) as (_ & C & _). congruence.
  Qed.

  Definition inert (s : string) : Prop := forall rest, never old s rest.
  Lemma inert_app s t : inert s -> inert t -> inert (s ++ t).
  Proof.
    intros A B rest b s' E N. destruct (split_eq _ _ _ _ E) as [(m & C & D)|(m & C & D)].
    - destruct m as [|c m].
      + cbn in D. apply (B rest "" s'); auto.
      + rewrite D, sapp_assoc. apply (A (t ++ rest)%string b (String c m)); [auto|discriminate].
    - apply (B rest m s'); auto.
  Qed.
  Lemma inert_closing m : no_paren m -> inert (m ++ ")").
  Proof.
    intros Hm rest b s' E N. apply starts_false. intros r H.
    destruct (split_eq _ _ _ _ E) as [(k & A' & D)|(k & A' & D)].
    - subst s'. rewrite sapp_assoc in H. cbn [append] in H. revert H. apply closing.
      apply (no_paren_r b). rewrite <- A'. auto.
    - destruct k as [|e k].
      + cbn [append] in D. subst s'. cbn [append] in H. revert H. apply (closing ""). intros c0 [].
      + cbn [append] in D. inversion D as [[C0 D']]. symmetry in D'. apply sapp_eq_nil in D'. destruct D'. congruence.
  Qed.

  Definition stop (c : ascii) : bool := parenb c || Ascii.eqb c "'".
  (** a parenthesis followed, before any closing one, by a quote or an opening one *)
  Lemma inert_opening q w x t : no_paren q -> (forall c, In c (chars w) -> stop c = false) ->
    x = "("%char \/ x = "'"%char -> inert (w ++ String x t) -> inert (q ++ String "(" (w ++ String x t)).
  Proof.
    intros Hq Hw Hx Iw rest b s' E N. apply starts_false. intros r H.
    destruct (split_eq _ _ _ _ E) as [(k & A & D)|(k & A & D)].
    - rewrite D in H. rewrite sapp_assoc in H. cbn [append] in H. rewrite sapp_assoc in H. cbn [append] in H.
      destruct (opening _ _ _ (no_paren_r _ _ ltac:(rewrite <- A; exact Hq)) H) as [_ S].
      assert (Ha : forall c, In c (chars a) -> stop c = false).
      { intros c I. destruct Hf as (_ & _ & G). destruct (G c I) as (G1 & G2 & G3). unfold stop, parenb.
        destruct (Ascii.eqb_spec c "("); [congruence|]. destruct (Ascii.eqb_spec c ")"); [congruence|].
        destruct (Ascii.eqb_spec c "'"); [congruence|]. auto. }
      assert (Sx : stop x = true) by (destruct Hx; subst x; reflexivity).
      destruct (delim stop _ _ _ _ _ _ S Hw Ha Sx eq_refl) as (_ & C & _). destruct Hx; congruence.
    - destruct k as [|e k].
      + cbn [append] in D. subst s'. cbn [append] in H.
        destruct (opening "" _ _ ltac:(intros c []) H) as [Q _]. destruct Hf as (Q' & _). unfold n in Q. congruence.
      + cbn [append] in D. inversion D as [[C0 D']].
        pose proof (Iw rest k s' D' N) as F. rewrite H in F. rewrite starts_app in F. discriminate.
  Qed.
End One.

(** ** the text of one function *)
Lemma clean_sep s : (forall c, In c (chars s) -> name_sep c = false) ->
  forall c, In c (chars (clean_latex_name s)) -> name_sep c = false.
Proof.
  intros H c. rewrite clean_norm. unfold norm. rewrite chars_of_chars. intros I.
  apply in_flat_map in I. destruct I as (d & I & J).
  destruct (existsb (Ascii.eqb d) [ascii_of_nat 92; "{"%char; "}"%char]); [destruct J|].
  destruct (existsb (Ascii.eqb d) ["^"%char; ","%char]).
  - destruct J as [<-|[]]. reflexivity.
  - destruct J as [<-|[]]. auto.
Qed.
Lemma digit_sep c : is_digit c = true -> name_sep c = false.
Proof.
  intros H. unfold name_sep. destruct (existsb (Ascii.eqb c) _) eqn:E; auto. exfalso.
  apply existsb_exists in E. destruct E as (d & I & Ed). apply Ascii.eqb_eq in Ed. subst d.
  simpl in I. repeat (destruct I as [<-|I]; [discriminate|]). destruct I.
Qed.
Lemma abs_digits z c : In c (chars (str_Z (Z.abs z))) -> is_digit c = true.
Proof.
  pose proof (Z.abs_nonneg z). unfold str_Z. destruct (Z.abs z) as [|p|p]; [| |lia]; cbn [Z.to_int]; apply uint_digits.
Qed.
Lemma time_tag_sep s c : In c (chars (time_tag s)) -> name_sep c = false.
Proof.
  unfold time_tag. destruct (Z.eqb s 0); [intros []|].
  destruct (Z.ltb s 0); intros [<-|I]; try reflexivity; apply digit_sep, (abs_digits s), I.
Qed.

Lemma Ok_inj {A} (x y : A) : Ok x = Ok y -> x = y.
Proof. congruence. Qed.

Section Inert.
  Variable f : pfun.
  Hypothesis Hf : plain_function f.

  Lemma inert_char c : name_sep c = true -> c <> "("%char -> inert f (String c "").
  Proof.
    intros S N rest b s' E Ns. apply starts_false. intros r H. rewrite old_eq in H.
    destruct b as [|d b].
    - cbn in E. subst s'. cbn [append] in H. destruct Hf as (Q & Hn & _).
      destruct (pf_name f) as [|e m]; [congruence|]. cbn [append] in H. inversion H. subst e.
      rewrite (Hn c) in S by (left; auto). discriminate.
    - cbn in E. inversion E as [[D E']]. symmetry in E'. apply sapp_eq_nil in E'. destruct E'. congruence.
  Qed.

  Definition slice_text (pre x : string) (s : Z) : string := (pre ++ fd_slice_rule ("'" ++ x ++ "'") s)%string.
  Lemma inert_slice pre x s : no_paren pre -> no_char "(" x -> no_char ")" x -> inert f (slice_text pre x s).
  Proof.
    intros Hp X1 X2. unfold slice_text, fd_slice_rule.
    assert (Hm : no_paren ("'" ++ x ++ "'," ++ str_Z s)).
    { intros c I. apply in_chars_app in I. destruct I as [[<-|[]]|I]; [reflexivity|].
      apply in_chars_app in I. destruct I as [I|I].
      - unfold parenb. destruct (Ascii.eqb_spec c "("); [subst; contradiction|].
        destruct (Ascii.eqb_spec c ")"); [subst; contradiction|]. auto.
      - apply in_chars_app in I. destruct I as [I|I].
        + repeat (destruct I as [<-|I]; [reflexivity|]). destruct I.
        + apply str_Z_digits in I. destruct I as [I| ->]; [|reflexivity].
          apply digit_sep in I. apply (sep_paren (String c "")); [intros d [<-|[]]; auto|left; auto]. }
    replace (pre ++ "self.index(" ++ ("'" ++ x ++ "'") ++ "," ++ str_Z s ++ ")")%string
      with ((pre ++ "self.index") ++ String "(" ("" ++ String "'" (x ++ "'," ++ str_Z s ++ ")")))%string
      by (cbn [append]; rewrite !sapp_assoc; cbn [append]; rewrite ?sapp_assoc; reflexivity).
    apply inert_opening; auto.
    - intros c I. apply in_chars_app in I. destruct I as [I|I]; [auto|].
      cbn in I. repeat (destruct I as [<-|I]; [reflexivity|]). destruct I.
    - intros c [].
    - cbn [append]. replace (String "'" (x ++ String "'" (String "," (str_Z s ++ ")"))))
        with (("'" ++ x ++ "'," ++ str_Z s) ++ ")")%string
        by (cbn [append]; rewrite !sapp_assoc; cbn [append]; rewrite ?sapp_assoc; reflexivity).
      apply inert_closing; auto.
  Qed.

  Lemma slices_form xs : forall ds l, slices fd_slice_rule xs ds = Ok l ->
    exists k, l = map (fun p => slice_text "" (fst p) (snd p)) k /\ (forall p, In p k -> In (fst p) xs) /\ List.length k = List.length ds.
  Proof.
    induction xs as [|x xs IH]; intros [|d ds] l H; cbn [slices] in H; try solve [inversion H; subst; exists []; cbn; intuition].
    destruct (as_integer d) as [s|]; [|discriminate].
    destruct (slices fd_slice_rule xs ds) as [r|] eqn:E; [|discriminate]. cbn [bind] in H. inversion H. subst l.
    destruct (IH _ _ E) as (k & -> & Hk & Hl). exists ((x, s) :: k). split; [reflexivity|]. split.
    - intros p [<-|I]; [left; auto|right; auto].
    - cbn. lia.
  Qed.

  Lemma join_slices p k : join "," (map (fun p => slice_text "" (fst p) (snd p)) (p :: k))
    = (slice_text "" (fst p) (snd p) ++ sconcat (map (fun p => slice_text "," (fst p) (snd p)) k))%string.
  Proof.
    revert p. induction k as [|q k IH]; intros p; [cbn; rewrite sapp_nil; reflexivity|].
    specialize (IH q). cbn [map] in *. cbn [join]. cbn [join] in IH. rewrite IH. reflexivity.
  Qed.
  Lemma inert_nil : inert f "".
  Proof. intros rest b s' E N. symmetry in E. apply sapp_eq_nil in E. destruct E. congruence. Qed.

  Lemma inert_join p k tail : (forall q, In q (p :: k) -> no_char "(" (fst q) /\ no_char ")" (fst q)) -> inert f tail ->
    inert f (join "," (map (fun p => slice_text "" (fst p) (snd p)) (p :: k)) ++ tail).
  Proof.
    intros H Ht. rewrite join_slices. apply inert_app; [apply inert_app|auto].
    - destruct (H p (or_introl eq_refl)). apply inert_slice; auto. intros c [].
    - assert (H' : forall q, In q k -> no_char "(" (fst q) /\ no_char ")" (fst q)) by (intros q I; apply H; right; auto).
      clear H. induction k as [|q k IH]; [apply inert_nil|]. cbn [map sconcat]. apply inert_app.
      + destruct (H' q (or_introl eq_refl)). apply inert_slice; auto. intros c [<-|[]]. reflexivity.
      + apply IH. intros q' I. apply H'. right. auto.
  Qed.

  Lemma inert_spatial xs ds s : (forall x, In x xs -> plain_coordinate x) -> spatial_part fd_slice_rule xs ds = Ok s ->
    inert f s /\ (s = "" \/ exists t, s = String "[" t).
  Proof.
    intros Hx. unfold spatial_part. destruct (existsb _ ds) eqn:Ex.
    - destruct (slices fd_slice_rule xs ds) as [l|] eqn:E; [|discriminate]. cbn [bind]. intros H. apply Ok_inj in H. rewrite <- H. clear H.
      split; [|right; eexists; reflexivity].
      destruct (slices_form _ _ _ E) as (k & -> & Hk & Hl).
      destruct k as [|p k]; [destruct ds; [discriminate|cbn in Hl; lia]|].
      assert (J : inert f (join "," (map (fun p => slice_text "" (fst p) (snd p)) (p :: k)) ++ ")]")).
      { apply inert_join.
        - intros q I. destruct (Hx _ (Hk _ I)) as (_ & _ & A & B). auto.
        - change ")]" with (("" ++ ")") ++ "]")%string. apply inert_app.
          + apply inert_closing; auto. intros c [].
          + apply inert_char; [reflexivity|discriminate]. }
      revert J. rewrite join_slices. unfold slice_text at 1 3. unfold fd_slice_rule. intros J.
      set (u := (sconcat _)) in *. set (v := ("'" ++ fst p ++ "'")%string) in *.
      change ("[np.ix_(" ++ (("" ++ "self.index(" ++ v ++ "," ++ str_Z (snd p) ++ ")") ++ u) ++ ")]")%string
        with ("[np.ix_" ++ String "(" ("self.index" ++ String "(" (((v ++ "," ++ str_Z (snd p) ++ ")") ++ u) ++ ")]")))%string.
      apply inert_opening; auto.
      + intros c I. cbn in I. repeat (destruct I as [<-|I]; [reflexivity|]). destruct I.
      + intros c I. cbn in I. repeat (destruct I as [<-|I]; [reflexivity|]). destruct I.
    - intros H. inversion H. split; [apply inert_nil|auto].
  Qed.

  Lemma code_form name xs ds s : (forall c, In c (chars name) -> name_sep c = false) ->
    (forall x, In x xs -> plain_coordinate x) ->
    code_regular_function fd_slice_rule name xs ds = Ok s ->
    exists h p, s = (h ++ p)%string /\ (forall c, In c (chars h) -> name_sep c = false)
                /\ inert f p /\ (p = "" \/ exists t, p = String "[" t).
  Proof.
    intros Hn Hx H.
    unfold code_regular_function in H. cbv zeta in H. destruct (existsb (String.eqb "t") xs) eqn:Et.
    - destruct xs as [|x0 xs]; [discriminate|]. destruct ds as [|d0 ds]; [discriminate|].
      destruct (String.eqb x0 "t"); [|discriminate]. destruct (as_integer d0) as [z|]; [|discriminate].
      destruct (spatial_part fd_slice_rule xs ds) as [p|] eqn:E; [|discriminate]. cbn [bind] in H. inversion H.
      destruct (inert_spatial xs ds p (fun x I => Hx x (or_intror I)) E) as [A B].
      exists (clean_latex_name name ++ time_tag z)%string, p. split; [rewrite sapp_assoc; auto|]. split; [|auto].
      intros c I. apply in_chars_app in I. destruct I as [I|I]; [eapply clean_sep; eauto|eapply time_tag_sep; eauto].
    - destruct (spatial_part fd_slice_rule xs ds) as [p|] eqn:E; [|discriminate]. cbn [bind] in H. inversion H.
      destruct (inert_spatial xs ds p Hx E) as [A B]. exists (clean_latex_name name), p.
      split; auto. split; [apply clean_sep; auto|auto].
  Qed.
  Lemma never_form h p rest : (forall c, In c (chars h) -> name_sep c = false) -> inert f p ->
    (p = "" \/ exists t, p = String "[" t) -> begins_sep rest -> never (str_function f) (h ++ p) rest.
  Proof.
    intros Hh Ip Bp Hr b s' E N.
    destruct (split_eq _ _ _ _ E) as [(m & C & D)|(m & C & D)].
    - destruct m as [|c m].
      + cbn in D. apply (Ip rest "" s'); auto.
      + rewrite D, sapp_assoc. apply (never_head f Hf h (p ++ rest) Hh) with (b := b); [|auto|discriminate].
        destruct Bp as [->|[t ->]]; [exact Hr|]. cbn. split; [reflexivity|discriminate].
    - apply (Ip rest m s'); auto.
  Qed.
  (** the code of a function is not touched by the replacement of another *)
  Lemma never_code name xs ds s rest : (forall c, In c (chars name) -> name_sep c = false) ->
    (forall x, In x xs -> plain_coordinate x) ->
    code_regular_function fd_slice_rule name xs ds = Ok s -> begins_sep rest -> never (str_function f) s rest.
  Proof.
    intros Hn Hx H Hr. destruct (code_form _ _ _ _ Hn Hx H) as (h & p & -> & Hh & Ip & Bp). apply never_form; auto.
  Qed.
End Inert.

(** ** the whole expression *)
Lemma code_prefix p f g : pf_name g = (p ++ pf_name f)%string -> pf_args f = pf_args g -> clean_latex_name p = p ->
  forall s, code_function fd_slice_rule f = Ok s -> code_function fd_slice_rule g = Ok (p ++ s)%string.
Proof.
  intros Hn Ha Hp s. unfold code_function. rewrite <- Ha.
  destruct (get_function_coordinates (map pa_symbols (pf_args f))) as [[xs dxs]|]; [|discriminate]. cbn [bind fst].
  unfold code_regular_function. cbv zeta. rewrite Hn.
  assert (C : clean_latex_name (p ++ pf_name f) = (p ++ clean_latex_name (pf_name f))%string).
  { rewrite <- Hp at 2. rewrite !clean_norm. unfold norm. rewrite chars_app, flat_map_app, of_chars_app. reflexivity. }
  rewrite C.
  destruct (existsb (String.eqb "t") xs).
  - destruct xs as [|x0 xs]; [discriminate|]. destruct (map pa_step (pf_args f)) as [|d0 ds]; [discriminate|].
    destruct (String.eqb x0 "t"); [|discriminate]. destruct (as_integer d0); [|discriminate].
    destruct (spatial_part fd_slice_rule xs ds); [|discriminate]. cbn [bind]. intros H. apply Ok_inj in H. subst s.
    rewrite !sapp_assoc. reflexivity.
  - destruct (spatial_part fd_slice_rule xs (map pa_step (pf_args f))); [|discriminate]. cbn [bind].
    intros H. apply Ok_inj in H. subst s. rewrite !sapp_assoc. reflexivity.
Qed.

Section Whole.
  Variable fs : list pfun.
  Variable c : pfun -> string.
  Variable xs : pfun -> list string.
  Hypothesis Hplain : forall f, In f fs -> plain_function f.
  Hypothesis Happ : forall f, In f fs -> applied_to (xs f) f.
  Hypothesis Hxs : forall f x, In f fs -> In x (xs f) -> plain_coordinate x.
  Hypothesis Hcode : forall f, In f fs -> code_function fd_slice_rule f = Ok (c f).
  Hypothesis Hinj : forall f g, In f fs -> In g fs -> args_text f = args_text g -> pf_args f = pf_args g.
  Hypothesis Hsuf : forall f g p, In f fs -> In g fs -> pf_args f = pf_args g ->
    pf_name g = (p ++ pf_name f)%string -> clean_latex_name p = p.

  Lemma coords f : In f fs -> get_function_coordinates (map pa_symbols (pf_args f)) = Ok (xs f, map (fun x => ("d" ++ x)%string) (xs f)).
  Proof.
    intros Hf. pose proof (Happ f Hf) as A. pose proof (fun x => Hxs f x Hf) as B. unfold applied_to in A.
    unfold get_function_coordinates.
    assert (E : mapM arg_coordinate (map pa_symbols (pf_args f)) = Ok (map (fun x => (x, ("d" ++ x)%string)) (xs f))).
    { induction A as [|x a l args P _ IH]; [reflexivity|]. cbn [mapM map].
      destruct (B x (or_introl eq_refl)) as (N & D & _).
      assert (Ex : arg_coordinate (pa_symbols a) = Ok (x, ("d" ++ x)%string)).
      { unfold arg_coordinate. destruct x as [|ch r]; [congruence|].
        destruct P as [->|[->| ->]]; [reflexivity| |].
        - destruct (ascii_dec ch "d") as [->|]; [exfalso; apply (D r); auto|reflexivity].
        - cbn [append]. destruct (ascii_dec "d" "d"); [reflexivity|congruence]. }
      rewrite Ex. cbn [bind]. rewrite IH; [reflexivity|]. intros y I. apply B. right. auto. }
    rewrite E. cbn [bind]. rewrite !map_map. cbn [fst snd]. rewrite map_id. reflexivity.
  Qed.
  Lemma regular f : In f fs -> code_regular_function fd_slice_rule (pf_name f) (xs f) (map pa_step (pf_args f)) = Ok (c f).
  Proof. intros H. pose proof (Hcode f H) as C. unfold code_function in C. rewrite (coords f H) in C. exact C. Qed.

  Definition show (st : pfun -> bool) (g : pfun) : string := if st g then c g else str_function g.
  Definition matches (f g : pfun) : bool :=
    if string_dec (args_text g) (args_text f)
    then if suffix_dec (pf_name f) (pf_name g) then true else false else false.

  Variable first : string.
  Definition lits (l : string) : Prop := forall f, In f fs -> ~ infix (pf_name f ++ "(") l.

  Lemma step_function f st g rest : In f fs -> In g fs -> begins_sep rest ->
    replace_from (str_function f) (c f) (show st g ++ rest) 0
    = (show (fun g => st g || matches f g) g ++ replace_from (str_function f) (c f) rest 0)%string.
  Proof.
    intros Hf Hg Hr. unfold show. destruct (st g) eqn:Es; cbn [orb].
    - apply pass. apply (never_code f (Hplain f Hf) (pf_name g) (xs g) (map pa_step (pf_args g))); auto.
      + destruct (Hplain g Hg) as (_ & H & _). exact H.
      + intros x. apply Hxs. auto.
      + apply regular. auto.
    - unfold matches. destruct (string_dec (args_text g) (args_text f)) as [Ea|Ea].
      + destruct (suffix_dec (pf_name f) (pf_name g)) as [(p & Ep)|Np].
        * assert (Aeq : pf_args f = pf_args g) by (apply Hinj; auto).
          assert (Cg : c g = (p ++ c f)%string).
          { pose proof (code_prefix p f g Ep Aeq (Hsuf f g p Hf Hg Aeq Ep) _ (Hcode f Hf)) as C.
            rewrite (Hcode g Hg) in C. apply Ok_inj in C. exact C. }
          rewrite Cg. assert (S : str_function g = (p ++ str_function f)%string).
          { unfold str_function. rewrite Ep, Ea, sapp_assoc. reflexivity. }
          rewrite S, !sapp_assoc. rewrite pass.
          -- rewrite hit; [auto|]. apply old_ne, Hplain, Hf.
          -- intros b s' E N. apply starts_false. intros r H.
             rewrite (old_eq f rest) in H. rewrite <- sapp_assoc in H.
             assert (P : no_paren (s' ++ pf_name f)%string).
             { apply (no_paren_r b). rewrite <- sapp_assoc, <- E, <- Ep. apply name_paren, Hplain, Hg. }
             destruct (opening f (Hplain f Hf) _ _ _ P H) as [Q _]. apply sapp_self in Q. congruence.
        * apply pass. apply never_function; auto.
      + apply pass. apply never_function; auto; congruence.
  Qed.

  Lemma step_rest f st rest : In f fs -> (forall p, In p rest -> In (fst p) fs /\ lits (snd p)) -> separated_rest rest ->
    replace_from (str_function f) (c f) (sconcat (map (fun p => show st (fst p) ++ snd p)%string rest)) 0
    = sconcat (map (fun p => show (fun g => st g || matches f g) (fst p) ++ snd p)%string rest).
  Proof.
    intros Hf. induction rest as [|[g l] rest IH]; intros Hin Hs; [reflexivity|].
    cbn [map sconcat fst snd]. destruct Hs as (Hb & He & Hs). rewrite !sapp_assoc.
    destruct (Hin (g, l) (or_introl eq_refl)) as [Hg Hl]. cbn [fst snd] in Hg, Hl.
    rewrite step_function; auto.
    - f_equal. rewrite pass.
      + f_equal. apply IH; auto. intros p I. apply Hin. right. auto.
      + apply never_literal; auto. destruct He as [->|He]; auto.
    - destruct l as [|ch l]; [|exact Hb]. destruct He as [->|(a & ch & E & _)]; [exact Logic.I|].
      symmetry in E. apply sapp_eq_nil in E. destruct E. discriminate.
  Qed.

  Lemma step_text f st rest : In f fs -> lits first -> (forall p, In p rest -> In (fst p) fs /\ lits (snd p)) ->
    separated first rest ->
    replace (str_function f) (c f) (print_with (show st) first rest) = print_with (show (fun g => st g || matches f g)) first rest.
  Proof.
    intros Hf Hl Hin [He Hs]. unfold replace, print_with. rewrite pass.
    - f_equal. apply step_rest; auto.
    - apply never_literal; auto. destruct He as [->|[->|He]]; auto.
  Qed.
  Lemma matches_self f : matches f f = true.
  Proof.
    unfold matches. destruct (string_dec (args_text f) (args_text f)) as [_|N]; [|congruence].
    destruct (suffix_dec (pf_name f) (pf_name f)) as [_|N]; [auto|]. exfalso. apply (N ""). auto.
  Qed.

  Lemma replace_functions_text l : (forall f, In f l -> In f fs) -> lits first -> forall rest,
    (forall p, In p rest -> In (fst p) fs /\ lits (snd p)) -> separated first rest -> forall st loc,
    exists st', replace_functions fd_slice_rule l loc (print_with (show st) first rest)
      = Ok (fold_left add_spacing (flat_map (fun f => map (fun x => (x, ("d" ++ x)%string)) (xs f)) l) loc, print_with (show st') first rest)
    /\ (forall g, st g = true -> st' g = true) /\ (forall g, In g l -> st' g = true).
  Proof.
    intros Hl Hlit rest Hin Hsep. induction l as [|f l IH]; intros st loc.
    - exists st. cbn. intuition.
    - assert (Hf : In f fs) by (apply Hl; left; auto).
      cbn [replace_functions]. rewrite (coords f Hf), (Hcode f Hf). cbn [bind fst snd].
      rewrite step_text by auto.
      destruct (IH (fun g I => Hl g (or_intror I)) (fun g => st g || matches f g)
                  (fold_left add_spacing (combine (xs f) (map (fun x => ("d" ++ x)%string) (xs f))) loc)) as (st' & E & M & D).
      exists st'. rewrite E. split; [|split].
      + cbn [flat_map]. rewrite fold_left_app.
        assert (Z : forall l, combine l (map (fun x => ("d" ++ x)%string) l) = map (fun x => (x, ("d" ++ x)%string)) l).
        { clear. induction l as [|x l IH]; [reflexivity|]. cbn [combine map]. rewrite IH. reflexivity. }
        rewrite Z. reflexivity.
      + intros g H. apply M. rewrite H. auto.
      + intros g [<-|I]; [|auto]. apply M. rewrite matches_self, orb_true_r. auto.
  Qed.
End Whole.

Lemma add_spacing_seen l : forall acc,
  fold_left add_spacing (map (fun x => (x, ("d" ++ x)%string)) l) (map (fun x => (x, ("d" ++ x)%string)) acc)
  = map (fun x => (x, ("d" ++ x)%string)) (fold_left (fun acc x => if existsb (String.eqb x) acc then acc else acc ++ [x]) l acc).
Proof.
  induction l as [|x l IH]; intros acc; [reflexivity|]. cbn [map fold_left]. rewrite <- IH. f_equal.
  unfold add_spacing at 1.
  assert (E : existsb (fun q => String.eqb (fst q) (fst (x, ("d" ++ x)%string)) && String.eqb (snd q) (snd (x, ("d" ++ x)%string)))
                (map (fun x => (x, ("d" ++ x)%string)) acc) = existsb (String.eqb x) acc).
  { induction acc as [|y acc IHa]; [reflexivity|]. cbn [map existsb fst snd] in *. rewrite IHa. f_equal.
    destruct (String.eqb_spec y x) as [->|N].
    - rewrite !String.eqb_refl. reflexivity.
    - cbn [andb]. symmetry. apply String.eqb_neq. congruence. }
  rewrite E. destruct (existsb (String.eqb x) acc); [auto|]. rewrite map_app. reflexivity.
Qed.
Lemma spacings_fold dx_rule l code :
  fold_left (fun code p => replace (snd p) (dx_rule (fst p)) code) (map (fun x => (x, ("d" ++ x)%string)) l) code
  = replace_spacings dx_rule l code.
Proof. unfold replace_spacings. revert code. induction l as [|x l IH]; intros code; [reflexivity|]. cbn [map fold_left fst snd]. apply IH. Qed.

Lemma code_text fs c xs dx_rule first rest :
  (forall f, In f fs -> plain_function f) -> (forall f, In f fs -> applied_to (xs f) f) ->
  (forall f x, In f fs -> In x (xs f) -> plain_coordinate x) ->
  (forall f, In f fs -> code_function fd_slice_rule f = Ok (c f)) ->
  (forall f g, In f fs -> In g fs -> args_text f = args_text g -> pf_args f = pf_args g) ->
  (forall f g p, In f fs -> In g fs -> pf_args f = pf_args g -> pf_name g = (p ++ pf_name f)%string -> clean_latex_name p = p) ->
  (forall p, In p rest -> In (fst p) fs) -> separated first rest ->
  (forall f l, In f fs -> In l (first :: map snd rest) -> ~ infix (pf_name f ++ "(") l) ->
  code_finite_difference fd_slice_rule dx_rule (print_with str_function first rest) fs
  = Ok (replace_spacings dx_rule (first_seen (flat_map xs fs)) (print_with c first rest)).
Proof.
  intros H1 H2 H3 H4 H5 H6 Hr Hs Hl.
  destruct (replace_functions_text fs c xs H1 H2 H3 H4 H5 H6 first fs (fun f I => I)
              (fun f I => Hl f first I (or_introl eq_refl)) rest
              (fun p I => conj (Hr p I) (fun f J => Hl f (snd p) J (or_intror (in_map snd rest p I)))) Hs (fun _ => false) [])
    as (st & E & _ & D).
  unfold code_finite_difference. change (print_with str_function first rest) with (print_with (show c (fun _ => false)) first rest).
  rewrite E. cbn [bind fst snd]. f_equal.
  assert (P : print_with (show c st) first rest = print_with c first rest).
  { unfold print_with. do 2 f_equal. apply map_ext_in. intros p I. unfold show. rewrite (D (fst p) (Hr p I)). auto. }
  rewrite P. rewrite <- spacings_fold. f_equal.
  unfold first_seen. rewrite <- (add_spacing_seen (flat_map xs fs) []). cbn [map]. f_equal.
  clear. induction fs as [|f fs IH]; [reflexivity|]. cbn [flat_map]. rewrite map_app, IH. auto.
Qed.

Lemma code_order fs fs' c xs dx_rule first rest :
  (forall f, In f fs -> plain_function f) -> (forall f, In f fs -> applied_to xs f) ->
  (forall x, In x xs -> plain_coordinate x) ->
  (forall f, In f fs -> code_function fd_slice_rule f = Ok (c f)) ->
  (forall f g, In f fs -> In g fs -> args_text f = args_text g -> pf_args f = pf_args g) ->
  (forall f g p, In f fs -> In g fs -> pf_args f = pf_args g -> pf_name g = (p ++ pf_name f)%string -> clean_latex_name p = p) ->
  (forall p, In p rest -> In (fst p) fs) -> separated first rest ->
  (forall f l, In f fs -> In l (first :: map snd rest) -> ~ infix (pf_name f ++ "(") l) ->
  Permutation fs fs' ->
  code_finite_difference fd_slice_rule dx_rule (print_with str_function first rest) fs
  = code_finite_difference fd_slice_rule dx_rule (print_with str_function first rest) fs'.
Proof.
  intros H1 H2 H3 H4 H5 H6 Hr Hs Hl HP.
  assert (I : forall f, In f fs' -> In f fs) by (intros f; apply Permutation_in, Permutation_sym, HP).
  rewrite (code_text fs c (fun _ => xs) dx_rule first rest) by auto.
  rewrite (code_text fs' c (fun _ => xs) dx_rule first rest); auto.
  - do 2 f_equal. apply Permutation_length in HP. clear - HP. 
    assert (G : forall (l : list pfun) acc, (forall x, In x xs -> existsb (String.eqb x) acc = true) ->
      fold_left (fun acc x => if existsb (String.eqb x) acc then acc else acc ++ [x]) (flat_map (fun _ => xs) l) acc = acc).
    { induction l as [|f l IH]; intros acc Ha; [reflexivity|]. cbn [flat_map]. rewrite fold_left_app.
      assert (E : forall ys, (forall y, In y ys -> existsb (String.eqb y) acc = true) ->
        fold_left (fun acc x => if existsb (String.eqb x) acc then acc else acc ++ [x]) ys acc = acc).
      { induction ys as [|y ys IHy]; intros Hy; [reflexivity|]. cbn [fold_left]. rewrite (Hy y) by (left; auto).
        apply IHy. intros z I. apply Hy. right. auto. }
      rewrite E by auto. apply IH. auto. }
    assert (M : forall ys acc y, (In y ys \/ In y acc) ->
      In y (fold_left (fun acc x => if existsb (String.eqb x) acc then acc else acc ++ [x]) ys acc)).
    { induction ys as [|z ys IH]; intros acc y H; [destruct H as [[]|]; auto|]. cbn [fold_left]. apply IH.
      destruct H as [[<-|H]|H]; auto; destruct (existsb (String.eqb z) acc) eqn:E; auto; right.
      - apply existsb_exists in E. destruct E as (w & I & E). apply String.eqb_eq in E. subst. auto.
      - apply in_app_iff. right. left. auto.
      - apply in_app_iff. auto. }
    destruct fs as [|f fs], fs' as [|f' fs']; try discriminate; [reflexivity|].
    unfold first_seen. cbn [flat_map]. rewrite !fold_left_app. rewrite !G; auto;
      intros x I; apply existsb_exists; exists x; (split; [apply M; auto|apply String.eqb_refl]).
  - intros f g p A B. apply (H6 f g p); auto.
  - intros p J. apply (Permutation_in _ HP). auto.
Qed.

Lemma code_prefix_clean p f g : pf_name g = (p ++ pf_name f)%string -> pf_args f = pf_args g ->
  forall s, code_function fd_slice_rule f = Ok s -> code_function fd_slice_rule g = Ok (clean_latex_name p ++ s)%string.
Proof.
  intros Hn Ha s. unfold code_function. rewrite <- Ha.
  destruct (get_function_coordinates (map pa_symbols (pf_args f))) as [[xs dxs]|]; [|discriminate]. cbn [bind fst].
  unfold code_regular_function. cbv zeta. rewrite Hn.
  assert (C : clean_latex_name (p ++ pf_name f) = (clean_latex_name p ++ clean_latex_name (pf_name f))%string).
  { rewrite !clean_norm. unfold norm. rewrite chars_app, flat_map_app, of_chars_app. reflexivity. }
  rewrite C.
  destruct (existsb (String.eqb "t") xs).
  - destruct xs as [|x0 xs]; [discriminate|]. destruct (map pa_step (pf_args f)) as [|d0 ds]; [discriminate|].
    destruct (String.eqb x0 "t"); [|discriminate]. destruct (as_integer d0); [|discriminate].
    destruct (spatial_part fd_slice_rule xs ds); [|discriminate]. cbn [bind]. intros H. apply Ok_inj in H. subst s.
    rewrite !sapp_assoc. reflexivity.
  - destruct (spatial_part fd_slice_rule xs (map pa_step (pf_args f))); [|discriminate]. cbn [bind].
    intros H. apply Ok_inj in H. subst s. rewrite !sapp_assoc. reflexivity.
Qed.

Lemma order_dependent f g p xs c :
  plain_function f -> plain_function g -> applied_to xs f -> (forall x, In x xs -> plain_coordinate x) ->
  pf_args g = pf_args f -> pf_name g = (p ++ pf_name f)%string -> p <> "" -> code_function fd_slice_rule f = Ok c ->
  exists loc,
  replace_functions fd_slice_rule [f; g] [] (str_function g ++ "*" ++ str_function f) = Ok (loc, p ++ c ++ "*" ++ c)%string
  /\ replace_functions fd_slice_rule [g; f] [] (str_function g ++ "*" ++ str_function f)
     = Ok (loc, clean_latex_name p ++ c ++ "*" ++ c)%string.
Proof.
  intros Pf Pg Ap Px Ea En Np Hc.
  assert (Hg : code_function fd_slice_rule g = Ok (clean_latex_name p ++ c)%string) by (apply (code_prefix_clean p f g); auto).
  assert (Co : get_function_coordinates (map pa_symbols (pf_args f)) = Ok (xs, map (fun x => ("d" ++ x)%string) xs)).
  { apply (coords [f] (fun _ => xs)); [intros h [<-|[]]; auto|intros h x [<-|[]]; auto|left; auto]. }
  assert (Re : code_regular_function fd_slice_rule (pf_name f) xs (map pa_step (pf_args f)) = Ok c).
  { pose proof Hc as C. unfold code_function in C. rewrite Co in C. exact C. }
  assert (Sg : str_function g = (p ++ str_function f)%string).
  { unfold str_function, args_text. rewrite En, Ea, sapp_assoc. reflexivity. }
  assert (Nf : forall c, In c (chars (pf_name f)) -> name_sep c = false) by (destruct Pf as (_ & H & _); exact H).
  assert (Ng : forall c, In c (chars (pf_name g)) -> name_sep c = false) by (destruct Pg as (_ & H & _); exact H).
  assert (Npp : forall c, In c (chars p) -> name_sep c = false).
  { intros ch I. apply Ng. rewrite En. apply in_chars_app. auto. }
  assert (Bs : forall s, begins_sep (String "*" s)) by (intros s; split; [reflexivity|discriminate]).
  assert (Star : forall h s, plain_function h -> never (str_function h) "*" s).
  { intros h s Ph. apply (inert_char h Ph "*"); [reflexivity|discriminate]. }
  (* replacing f *)
  assert (Pp : forall rest, never (str_function f) p (str_function f ++ rest)).
  { intros rest b s' E N. apply starts_false. intros r H. rewrite (old_eq f rest) in H. rewrite <- sapp_assoc in H.
    assert (P : no_paren (s' ++ pf_name f)%string).
    { apply (no_paren_r b). rewrite <- sapp_assoc, <- E, <- En. apply name_paren, Pg. }
    destruct (opening f Pf _ _ _ P H) as [Q _]. apply sapp_self in Q. congruence. }
  assert (Of : str_function f <> "") by (apply old_ne, Pf).
  assert (Og : str_function g <> "") by (apply old_ne, Pg).
  assert (End : forall h new s, plain_function h -> s <> "" -> s = str_function h -> replace_from s new s 0 = new).
  { intros h new s _ N _. rewrite <- (sapp_nil s) at 2. rewrite hit by auto. cbn. apply sapp_nil. }
  assert (F1 : forall new, replace (str_function f) new (str_function g ++ "*" ++ str_function f) = (p ++ new ++ "*" ++ new)%string).
  { intros new. unfold replace. rewrite Sg, !sapp_assoc. rewrite pass by apply Pp. f_equal.
    rewrite hit by auto. f_equal. rewrite pass by (apply Star; auto). f_equal. apply (End f); auto. }
  (* then g *)
  assert (NGf : forall rest, never (str_function g) (str_function f) rest).
  { intros rest. apply never_function; auto. intros _ q H.
    rewrite En in H. assert (L : String.length (pf_name f) = String.length (q ++ p ++ pf_name f)%string) by congruence.
    rewrite !slen_app in L. destruct p; [congruence|cbn in L; lia]. }
  assert (NGc : forall q rest, (forall ch, In ch (chars q) -> name_sep ch = false) -> begins_sep rest -> never (str_function g) (q ++ c) rest).
  { intros q rest Hq Hr. destruct (code_form g Pg _ _ _ _ Nf Px Re) as (h & t & -> & Hh & It & Bt).
    rewrite <- sapp_assoc. apply never_form; auto.
    intros ch I. apply in_chars_app in I. destruct I; auto. }
  assert (NFc : forall q rest, (forall ch, In ch (chars q) -> name_sep ch = false) -> begins_sep rest -> never (str_function f) (q ++ c) rest).
  { intros q rest Hq Hr. destruct (code_form f Pf _ _ _ _ Nf Px Re) as (h & t & -> & Hh & It & Bt).
    rewrite <- sapp_assoc. apply never_form; auto.
    intros ch I. apply in_chars_app in I. destruct I; auto. }
  assert (G1 : forall new, replace (str_function g) new (p ++ c ++ "*" ++ c) = (p ++ c ++ "*" ++ c)%string).
  { intros new. unfold replace. rewrite <- (sapp_assoc p c). rewrite pass by (apply NGc; [auto|apply Bs]). f_equal.
    rewrite pass by (apply Star; auto). f_equal. rewrite <- (sapp_nil c) at 1. rewrite pass; [apply sapp_nil|].
    apply (NGc "" ""); [intros ch []|exact Logic.I]. }
  assert (G2 : forall new, replace (str_function g) new (str_function g ++ "*" ++ str_function f) = (new ++ "*" ++ str_function f)%string).
  { intros new. unfold replace. rewrite hit by auto. f_equal. rewrite pass by (apply Star; auto). f_equal.
    rewrite <- (sapp_nil (str_function f)) at 1. rewrite pass by apply NGf. apply sapp_nil. }
  assert (F2 : forall new, replace (str_function f) new ((clean_latex_name p ++ c) ++ "*" ++ str_function f) = ((clean_latex_name p ++ c) ++ "*" ++ new)%string).
  { intros new. unfold replace. rewrite pass by (apply NFc; [apply clean_sep; auto|apply Bs]). f_equal.
    rewrite pass by (apply Star; auto). f_equal. apply (End f); auto. }
  eexists. split; cbn [replace_functions]; rewrite ?Ea, ?Co, ?Hc, ?Hg; cbn [bind fst snd]; rewrite ?Ea, ?Co, ?Hc, ?Hg; cbn [bind fst snd].
  - rewrite F1, G1. reflexivity.
  - rewrite G2, F2, !sapp_assoc. reflexivity.
Qed.

Lemma print_printed first rest : print_with str_function first rest = print_with printed first rest.
Proof. reflexivity. Qed.
