(** Injectivity of the generated names and array accesses. *)
From Coq Require Import List Arith ZArith QArith Bool Ascii String DecimalString Lia Decimal DecimalNat DecimalZ.
From Verif Require Import PyBase PyBaseFacts StrModel StrSpec StrProofs.
Import ListNotations.
Close Scope Q_scope.
Open Scope string_scope.
Open Scope list_scope.
Open Scope nat_scope.

Lemma str_nat_inj m n : str_nat m = str_nat n -> m = n.
Proof.
  unfold str_nat. intros H. apply DecimalNat.Unsigned.to_uint_inj.
  assert (E : Some (Nat.to_uint m) = Some (Nat.to_uint n)) by (rewrite <- !NilEmpty.usu, H; auto). inversion E. auto.
Qed.
Lemma str_Z_inj m n : str_Z m = str_Z n -> m = n.
Proof.
  unfold str_Z. intros H.
  rewrite <- (DecimalZ.of_to m), <- (DecimalZ.of_to n).
  assert (E : Some (Z.to_int m) = Some (Z.to_int n)) by (rewrite <- !NilEmpty.isi, H; auto). inversion E. auto.
Qed.

Definition is_digit (c : ascii) : bool := let n := nat_of_ascii c in Nat.leb 48 n && Nat.leb n 57.
Lemma uint_digits u c : In c (chars (NilEmpty.string_of_uint u)) -> is_digit c = true.
Proof. induction u; simpl; try tauto; intros [<-|H]; auto. Qed.
Lemma str_nat_digits n c : In c (chars (str_nat n)) -> is_digit c = true.
Proof. apply uint_digits. Qed.
Lemma str_Z_digits z c : In c (chars (str_Z z)) -> is_digit c = true \/ c = "-"%char.
Proof.
  unfold str_Z. destruct (Z.to_int z) as [u|u]; simpl.
  - intros H. left. eapply uint_digits; eauto.
  - intros [<-|H]; auto. left. eapply uint_digits; eauto.
Qed.
(** splitting at the first occurrence of a character *)
Lemma split_at c a b x y : no_char c a -> no_char c b ->
  (a ++ String c x = b ++ String c y)%string -> a = b /\ x = y.
Proof.
  revert b. induction a as [|d a IH]; intros b Ha Hb H.
  - destruct b as [|e b]; simpl in H; inversion H; subst; auto. exfalso. apply Hb. left; auto.
  - destruct b as [|e b]; simpl in H; inversion H; subst.
    + exfalso. apply Ha. left; auto.
    + destruct (IH b) as [-> ->]; auto.
      * intros I. apply Ha. right; auto.
      * intros I. apply Hb. right; auto.
Qed.
Lemma no_char_app c a b : no_char c (a ++ b)%string <-> no_char c a /\ no_char c b.
Proof. unfold no_char. rewrite chars_app, in_app_iff. tauto. Qed.

(** ** derivative names *)
Lemma pieces_inj o : forall o',
  (forall c n, In (c, n) o -> no_char "_" c) -> (forall c n, In (c, n) o' -> no_char "_" c) ->
  o <> [] -> o' <> [] ->
  join "_" (map (fun co => (fst co ++ "_o" ++ str_nat (snd co))%string) o)
  = join "_" (map (fun co => (fst co ++ "_o" ++ str_nat (snd co))%string) o') -> o = o'.
Proof.
  assert (D : forall n, no_char "_" (str_nat n)).
  { intros n I. apply str_nat_digits in I. discriminate. }
  induction o as [|[c n] o IH]; intros o' H H' N N'; [congruence|].
  destruct o' as [|[c' n'] o']; [congruence|].
  assert (F : forall c n o, join "_" (map (fun co => (fst co ++ "_o" ++ str_nat (snd co))%string) ((c, n) :: o))
     = (c ++ String "_" (String "o" (str_nat n ++ match o with [] => "" | _ => String "_" (join "_" (map (fun co => (fst co ++ "_o" ++ str_nat (snd co))%string) o)) end)))%string).
  { clear. intros c n o. destruct o as [|p o].
    - simpl. rewrite sapp_nil. reflexivity.
    - cbn [map join fst snd]. rewrite !sapp_assoc. reflexivity. }
  rewrite !F. clear F. intros E. apply split_at in E; [|apply (H c n); left; auto|apply (H' c' n'); left; auto].
  destruct E as [-> E]. inversion E as [E']. clear E.
  destruct o as [|p o], o' as [|p' o'].
  - rewrite !sapp_nil in E'. apply str_nat_inj in E'. congruence.
  - exfalso. rewrite sapp_nil in E'. apply (D n). rewrite E', chars_app. apply in_or_app. right. left. auto.
  - exfalso. rewrite sapp_nil in E'. apply (D n'). rewrite <- E', chars_app. apply in_or_app. right. left. auto.
  - apply split_at in E'; auto. destruct E' as [En E'].
    apply str_nat_inj in En. subst n'. f_equal. apply IH; auto; try discriminate.
    + intros c0 n0 I. apply (H c0 n0). right; auto.
    + intros c0 n0 I. apply (H' c0 n0). right; auto.
Qed.

Lemma derivative_name_inj f g o o' :
  no_char "_" (keyvar f) -> no_char "_" (keyvar g) ->
  (forall c n, In (c, n) o -> no_char "_" c) -> (forall c n, In (c, n) o' -> no_char "_" c) ->
  o <> [] -> o' <> [] -> derivative_name f o = derivative_name g o' -> keyvar f = keyvar g /\ o = o'.
Proof.
  intros Hf Hg Ho Ho' N N' H. unfold derivative_name in H. cbn [append] in H. inversion H as [E].
  change (keyvar f ++ String "_" (join "_" (map (fun co => (fst co ++ "_o" ++ str_nat (snd co))%string) o))
     = keyvar g ++ String "_" (join "_" (map (fun co => (fst co ++ "_o" ++ str_nat (snd co))%string) o')))%string in E.
  apply split_at in E; auto. destruct E as [-> E]. split; auto. apply pieces_inj; auto.
Qed.
Lemma derivative_name_underscore f o : ~ no_char "_" (derivative_name f o).
Proof.
  unfold derivative_name. intros H. apply H. cbn [append chars]. right. rewrite chars_app. apply in_or_app. right. left; auto.
Qed.
Lemma no_underscore_keyvar f : no_char "_" f -> no_char "^" f -> no_char "," f -> no_char "_" (keyvar f).
Proof.
  unfold keyvar. rewrite clean_norm. unfold norm, no_char. intros A B C. rewrite chars_of_chars. intros H.
  apply in_flat_map in H. destruct H as (c & I & H). change (In "_"%char (nchar c)) in H. unfold nchar in H.
  destruct (existsb (Ascii.eqb c) [ascii_of_nat 92; "{"%char; "}"%char]); [destruct H|].
  destruct (existsb (Ascii.eqb c) ["^"%char; ","%char]) eqn:E.
  - apply existsb_exists in E. destruct E as (d & Id & Ed). apply Ascii.eqb_eq in Ed. subst d.
    destruct Id as [<-|[<-|[]]]; tauto.
  - destruct H as [->|[]]. tauto.
Qed.

(** ** array accesses *)
Lemma as_integer_inj a b z : as_integer a = Some z -> as_integer b = Some z -> a = b.
Proof.
  unfold as_integer. destruct a as [p q], b as [r s]. cbn [Qden Qnum].
  destruct (Pos.eqb q 1) eqn:E1; [|intros H; discriminate H]. destruct (Pos.eqb s 1) eqn:E2; [|intros ? H; discriminate H].
  apply Pos.eqb_eq in E1, E2. intros H H'. inversion H. inversion H'. subst. auto.
Qed.
Lemma as_integer_zero a z : as_integer a = Some z -> Qeq_bool a 0 = true <-> z = 0%Z.
Proof.
  unfold as_integer. destruct a as [p q]. cbn [Qden Qnum]. destruct (Pos.eqb q 1) eqn:E; [|intros H; discriminate H].
  apply Pos.eqb_eq in E. subst q. intros H. inversion H; subst. rewrite Qeq_bool_iff. unfold Qeq. simpl. lia.
Qed.

Lemma slices_inj xs : forall ds ds' l l', List.length ds = List.length xs -> List.length ds' = List.length xs ->
  slices fd_slice_rule xs ds = Ok l -> slices fd_slice_rule xs ds' = Ok l' ->
  forall tl tl', (join "," l ++ String ")" tl = join "," l' ++ String ")" tl')%string ->
  ds = ds' /\ tl = tl'.
Proof.
  assert (SZ : forall z, no_char ")" (str_Z z)).
  { intros z I. apply str_Z_digits in I. destruct I; discriminate. }
  induction xs as [|x xs IH]; intros ds ds' l l' L L' E E' tl tl' H.
  - destruct ds, ds'; try discriminate. simpl in E, E'. inversion E. inversion E'. subst. simpl in H. inversion H. auto.
  - destruct ds as [|d ds], ds' as [|d' ds']; try discriminate. cbn [slices] in E, E'.
    destruct (as_integer d) as [s|] eqn:Ed; [|discriminate]. destruct (as_integer d') as [s'|] eqn:Ed'; [|discriminate].
    destruct (slices fd_slice_rule xs ds) as [r|] eqn:Er; [|discriminate].
    destruct (slices fd_slice_rule xs ds') as [r'|] eqn:Er'; [|discriminate].
    cbn [bind] in E, E'. inversion E; subst l. inversion E'; subst l'. clear E E'.
    assert (F : forall s r tl, (join "," (fd_slice_rule ("'" ++ x ++ "'") s :: r) ++ String ")" tl)%string
       = ("self.index('" ++ x ++ "'," ++ str_Z s ++ String ")" (match r with [] => "" | _ => String "," (join "," r) end ++ String ")" tl))%string).
    { clear. intros s r tl. unfold fd_slice_rule. destruct r as [|a r]; cbn [join].
      - do 6 (rewrite ?sapp_assoc; cbn [append]). reflexivity.
      - do 6 (rewrite ?sapp_assoc; cbn [append]). reflexivity. }
    rewrite !F in H. clear F. apply sapp_inv_head in H. apply sapp_inv_head in H. apply sapp_inv_head in H.
    apply split_at in H; auto. destruct H as [Hs H]. apply str_Z_inj in Hs. subst s'.
    assert (Ld : List.length r = List.length r').
    { assert (G : forall xs ds l, List.length ds = List.length xs -> slices fd_slice_rule xs ds = Ok l -> List.length l = List.length ds).
      { clear. induction xs as [|x xs IH]; intros [|d ds] l Hl; simpl; try discriminate.
        - intros E; inversion E; auto.
        - destruct (as_integer d); [|discriminate]. destruct (slices fd_slice_rule xs ds) eqn:E; [|discriminate].
          simpl. intros E2. inversion E2. simpl. f_equal. apply (IH ds); auto. }
      simpl in L, L'. rewrite (G xs ds r), (G xs ds' r'); auto; lia. }
    assert (Hj : (join "," r ++ String ")" tl = join "," r' ++ String ")" tl')%string).
    { destruct r, r'; try discriminate; auto. simpl in H. inversion H. auto. }
    destruct (IH ds ds' r r') with (tl := tl) (tl' := tl') as [-> ->]; auto. split; auto. f_equal.
    eapply as_integer_inj; eauto.
Qed.

Definition canonical (q : Q) : Prop := q = Qred q.

Lemma exist_nonzero_false ds : existsb (fun d => negb (Qeq_bool d 0)) ds = false ->
  (forall d, In d ds -> canonical d) -> ds = repeat (Qmake 0 1) (List.length ds).
Proof.
  induction ds as [|d ds IH]; intros H Hc; [reflexivity|]. cbn [existsb] in H. apply orb_false_iff in H. destruct H as [H1 H2].
  simpl. f_equal.
  - apply negb_false_iff, Qeq_bool_iff in H1. rewrite (Hc d (or_introl eq_refl)). apply Qred_complete in H1. exact H1.
  - apply IH; auto. intros d' I. apply Hc. right; auto.
Qed.

Lemma spatial_inj xs ds ds' p p' : List.length ds = List.length xs -> List.length ds' = List.length xs ->
  (forall d, In d ds -> canonical d) -> (forall d, In d ds' -> canonical d) ->
  spatial_part fd_slice_rule xs ds = Ok p -> spatial_part fd_slice_rule xs ds' = Ok p' -> p = p' -> ds = ds'.
Proof.
  intros L L' C C' E E' Hp. unfold spatial_part in *.
  destruct (existsb (fun d => negb (Qeq_bool d 0)) ds) eqn:N, (existsb (fun d => negb (Qeq_bool d 0)) ds') eqn:N'.
  - destruct (slices fd_slice_rule xs ds) as [l|] eqn:S1; [|discriminate].
    destruct (slices fd_slice_rule xs ds') as [l'|] eqn:S2; [|discriminate]. cbn [bind] in *.
    inversion E as [E1]. inversion E' as [E1']. subst p'.
    assert (H : (join "," l ++ String ")" "]" = join "," l' ++ String ")" "]")%string).
    { rewrite <- E1 in E1'. simpl in E1'. inversion E1'. auto. }
    destruct (slices_inj xs ds ds' l l' L L' S1 S2 _ _ H); auto.
  - destruct (slices fd_slice_rule xs ds) as [l|]; [|discriminate]. cbn [bind] in E. inversion E. inversion E'. subst. discriminate.
  - destruct (slices fd_slice_rule xs ds') as [l|]; [|discriminate]. cbn [bind] in E'. inversion E. inversion E'. subst. discriminate.
  - rewrite (exist_nonzero_false ds N C), (exist_nonzero_false ds' N' C'). congruence.
Qed.

Lemma time_tag_no_bracket s : no_char "[" (time_tag s).
Proof.
  unfold time_tag. intros I. destruct (Z.eqb s 0); [destruct I|].
  destruct (Z.ltb s 0); destruct I as [I|I]; try discriminate; apply str_Z_digits in I; destruct I; discriminate.
Qed.
Lemma time_tag_inj a b : time_tag a = time_tag b -> a = b.
Proof.
  unfold time_tag. destruct (Z.eqb_spec a 0), (Z.eqb_spec b 0); subst; auto.
  - destruct (Z.ltb b 0); discriminate.
  - destruct (Z.ltb a 0); discriminate.
  - destruct (Z.ltb_spec a 0), (Z.ltb_spec b 0); intros HH; inversion HH as [E]; apply str_Z_inj in E; lia.
Qed.
Lemma spatial_shape xs ds p : spatial_part fd_slice_rule xs ds = Ok p -> p = "" \/ exists r, p = String "[" r.
Proof.
  unfold spatial_part. destruct (existsb _ ds).
  - destruct (slices fd_slice_rule xs ds); simpl; [|discriminate]. intros E. inversion E. right. eauto.
  - intros E. inversion E. auto.
Qed.
Lemma bracket_split a b p p' : no_char "[" a -> no_char "[" b ->
  (p = "" \/ exists r, p = String "[" r) -> (p' = "" \/ exists r, p' = String "[" r) ->
  (a ++ p = b ++ p')%string -> a = b /\ p = p'.
Proof.
  intros A B [->|[r ->]] [->|[r' ->]] H.
  - rewrite !sapp_nil in H. auto.
  - exfalso. rewrite sapp_nil in H. apply A. rewrite H, chars_app. apply in_or_app. right; left; auto.
  - exfalso. rewrite sapp_nil in H. apply B. rewrite <- H, chars_app. apply in_or_app. right; left; auto.
  - apply split_at in H; auto. destruct H; subst. auto.
Qed.

Lemma code_regular_inj func xs ds ds' s : List.length ds = List.length xs -> List.length ds' = List.length xs ->
  (forall d, In d ds -> canonical d) -> (forall d, In d ds' -> canonical d) ->
  code_regular_function fd_slice_rule func xs ds = Ok s ->
  code_regular_function fd_slice_rule func xs ds' = Ok s -> ds = ds'.
Proof.
  intros L L' C C' E E'. unfold code_regular_function in *. destruct (existsb (String.eqb "t") xs).
  - destruct xs as [|x0 xs]; [discriminate|]. destruct ds as [|d ds], ds' as [|d' ds']; try discriminate.
    destruct (String.eqb x0 "t"); [|discriminate].
    destruct (as_integer d) as [z|] eqn:Z1; [|discriminate]. destruct (as_integer d') as [z'|] eqn:Z2; [|discriminate].
    destruct (spatial_part fd_slice_rule xs ds) as [p|] eqn:S1; [|discriminate].
    destruct (spatial_part fd_slice_rule xs ds') as [p'|] eqn:S2; [|discriminate].
    cbn [bind] in E, E'. inversion E as [E1]. inversion E' as [E1']. rewrite <- E1 in E1'.
    apply sapp_inv_head in E1'. apply bracket_split in E1'; try apply time_tag_no_bracket; try (eapply spatial_shape; eauto).
    destruct E1' as [T P]. apply time_tag_inj in T. subst z'. f_equal.
    + eapply as_integer_inj; eauto.
    + simpl in L, L'. apply (spatial_inj xs ds ds' p p'); auto.
      * intros q I. apply C. right; auto.
      * intros q I. apply C'. right; auto.
  - destruct (spatial_part fd_slice_rule xs ds) as [p|] eqn:S1; [|discriminate].
    destruct (spatial_part fd_slice_rule xs ds') as [p'|] eqn:S2; [|discriminate].
    cbn [bind] in E, E'. inversion E as [E1]. inversion E' as [E1']. rewrite <- E1 in E1'.
    apply sapp_inv_head in E1'. eapply spatial_inj; eauto.
Qed.

Lemma not_infix_b p s :
  existsb (fun k => starts p (of_chars (skipn k (chars s)))) (seq 0 (S (String.length s))) = false -> ~ infix p s.
Proof.
  intros H (a & b & E). subst s.
  assert (T : existsb (fun k => starts p (of_chars (skipn k (chars (a ++ p ++ b))))) (seq 0 (S (String.length (a ++ p ++ b)))) = true).
  - apply existsb_exists. exists (String.length a). split; [apply in_seq; rewrite slen_app; lia|].
    rewrite chars_app. assert (L : String.length a = List.length (chars a)) by (clear; induction a; simpl; auto).
    rewrite L, skipn_app, Nat.sub_diag, skipn_all. simpl. rewrite of_chars_chars. apply starts_app.
  - congruence.
Qed.
