From Coq Require Import List Arith Bool Ascii String Lia.
From Verif Require Import PyBase PyBaseFacts StrModel StrSpec StrProofs NameModel NameSpec.
Import ListNotations.
Open Scope string_scope.
Open Scope list_scope.
Open Scope nat_scope.

Lemma sapp_inv_tail (a b c : string) : (a ++ c = b ++ c)%string -> a = b.
Proof.
  intros E. apply chars_inj. apply (f_equal chars) in E. rewrite !chars_app in E. exact (app_inv_tail _ _ _ E).
Qed.
Lemma comma_split a b r s : no_char ","%char a -> no_char ","%char b -> (a ++ "," ++ r = b ++ "," ++ s)%string -> a = b /\ r = s.
Proof.
  unfold no_char. revert b. induction a as [|c a IH]; intros [|d b] Ha Hb E; cbn in *.
  - injection E as ->. auto.
  - injection E as <- E. exfalso. apply Hb. auto.
  - injection E as -> E. exfalso. apply Ha. auto.
  - injection E as <- E. destruct (IH b) as [-> ->]; auto.
Qed.
Lemma code_no_comma f : no_char ","%char (code f).
Proof. unfold code. rewrite clean_norm. intros H. apply norm_special in H. apply H. unfold special. cbn. tauto. Qed.

Lemma index_code_sym f i j : index_code f i j = index_code f j i.
Proof.
  unfold index_code. destruct (Nat.ltb_spec j i), (Nat.ltb_spec i j); try reflexivity; try lia. replace j with i by lia. reflexivity.
Qed.
Lemma metric_func_sym f i j : metric_func f i j = metric_func f j i.
Proof. unfold metric_func. now rewrite index_code_sym. Qed.
Lemma nu_func_sym f i j : nu_func f i j = nu_func f j i.
Proof. unfold nu_func. now rewrite index_code_sym. Qed.
Lemma aspect_func_sym f i j : aspect_func f i j = aspect_func f j i.
Proof. unfold aspect_func. now rewrite index_code_sym. Qed.

Lemma mapM_nth {A B} (f : A -> res B) l : forall r i x, mapM f l = Ok r -> nth_error l i = Some x -> exists y, f x = Ok y /\ nth_error r i = Some y.
Proof.
  induction l as [|a l IH]; intros r i x H Hi; [destruct i; discriminate|]. cbn [mapM] in H. unfold bind in H.
  destruct (f a) eqn:E; [|discriminate]. destruct (mapM f l) eqn:E2; [|discriminate]. injection H as <-. destruct i; cbn in Hi |- *.
  - injection Hi as <-. eauto.
  - eapply IH; eauto.
Qed.
Lemma mapM_defined {A B} (f : A -> res B) l : (forall x, In x l -> exists y, f x = Ok y) -> exists r, mapM f l = Ok r.
Proof.
  induction l as [|a l IH]; intros H; [eexists; reflexivity|]. destruct (H a (or_introl eq_refl)) as (y & Hy).
  destruct IH as (r & Hr); [intros; apply H; now right|]. exists (y :: r). cbn [mapM]. unfold bind. now rewrite Hy, Hr.
Qed.
Lemma index_code_ok f i j : i < List.length (spatial_coordinates f) -> j < List.length (spatial_coordinates f) -> exists c, index_code f i j = Ok c.
Proof.
  intros Hi Hj. unfold index_code. assert (L : List.length (spatial_coords_code f) = List.length (spatial_coordinates f)) by apply map_length.
  destruct (Nat.ltb j i);
  (destruct (nth_error (spatial_coords_code f) i) eqn:A; [|apply nth_error_None in A; lia]);
  (destruct (nth_error (spatial_coords_code f) j) eqn:B; [|apply nth_error_None in B; lia]); eexists; reflexivity.
Qed.
Lemma index_code_err f i j : List.length (spatial_coordinates f) <= i \/ List.length (spatial_coordinates f) <= j -> index_code f i j = Err IndexError.
Proof.
  intros H. unfold index_code. assert (L : List.length (spatial_coords_code f) = List.length (spatial_coordinates f)) by apply map_length.
  destruct (Nat.ltb j i);
  (destruct (nth_error (spatial_coords_code f) i) eqn:A; [|reflexivity || (destruct (nth_error (spatial_coords_code f) j); reflexivity)]);
  (destruct (nth_error (spatial_coords_code f) j) eqn:B; [|reflexivity]);
  apply nth_error_Some_lt in A || idtac; exfalso;
  assert (i < List.length (spatial_coords_code f)) by (apply nth_error_Some; congruence);
  assert (j < List.length (spatial_coords_code f)) by (apply nth_error_Some; congruence); lia.
Qed.
Lemma tensor_ok entry n : (forall i j, i < n -> j < n -> exists g, entry i j = Ok g) ->
  exists m, tensor entry n = Ok m
  /\ forall i j, i < n -> j < n -> exists row g, nth_error m i = Some row /\ nth_error row j = Some g /\ entry i j = Ok g.
Proof.
  intros H. unfold tensor.
  assert (R : forall i, In i (seq 0 n) -> exists r, mapM (fun j => entry i j) (seq 0 n) = Ok r).
  { intros i Hi. apply in_seq in Hi. apply mapM_defined. intros j Hj. apply in_seq in Hj. apply H; lia. }
  destruct (mapM_defined _ _ R) as (m & Hm). exists m. split; [exact Hm|]. intros i j Hi Hj.
  destruct (mapM_nth _ _ _ i i Hm) as (row & Hr & Hn); [rewrite nth_error_nth' with (d := 0) by (rewrite seq_length; lia); rewrite seq_nth; auto|].
  destruct (mapM_nth _ _ _ j j Hr) as (g & Hg & Hn'); [rewrite nth_error_nth' with (d := 0) by (rewrite seq_length; lia); rewrite seq_nth; auto|].
  eauto 6.
Qed.

Lemma prefix_cases (a b r s : string) : (a ++ r = b ++ s)%string -> (exists x, b = (a ++ x)%string) \/ (exists x, a = (b ++ x)%string).
Proof.
  revert b. induction a as [|c a IH]; intros [|d b] E; cbn in *; eauto.
  injection E as <- E. destruct (IH b E) as [(x & ->)|(x & ->)]; [left|right]; eexists; reflexivity.
Qed.
Lemma pair_inj_names l i j i' j' a b a' b' : prefix_free l -> nth_error l i = Some a -> nth_error l j = Some b ->
  nth_error l i' = Some a' -> nth_error l j' = Some b' -> (a ++ b = a' ++ b')%string -> i = i' /\ j = j'.
Proof.
  intros P A B A' B' E.
  assert (I : i = i').
  { destruct (prefix_cases _ _ _ _ E) as [(x & Hx)|(x & Hx)]; [|symmetry]; eapply P; eauto. }
  split; [exact I|]. subst i'. rewrite A in A'. injection A' as <-. apply sapp_inv_head in E. subst b'. apply (P j j' b b ""); auto. now rewrite sapp_nil.
Qed.
Lemma same_lengths_prefix_free l : same_lengths l -> NoDup l -> prefix_free l.
Proof.
  intros S D i j a b r A B E. assert (L : String.length a = String.length b) by (apply S; eapply nth_error_In; eauto).
  subst b. rewrite slen_app in L. destruct r; [|cbn in L; lia]. rewrite sapp_nil in B.
  apply (proj1 (NoDup_nth_error l) D); [apply nth_error_Some; congruence|congruence].
Qed.

Lemma index_code_le f a b c : a <= b -> index_code f a b = Ok c ->
  exists x y, nth_error (spatial_coords_code f) a = Some x /\ nth_error (spatial_coords_code f) b = Some y /\ c = (x ++ y)%string.
Proof.
  intros L. unfold index_code. destruct (Nat.ltb_spec b a); [lia|].
  destruct (nth_error (spatial_coords_code f) a) eqn:A; [|discriminate]. destruct (nth_error (spatial_coords_code f) b) eqn:B; [|discriminate].
  intros E. injection E as <-. eauto 6.
Qed.

(** ** Distinct quantities have distinct symbols *)
Definition kind (q : quantity) : nat :=
  match q with Value _ => 0 | Random _ => 1 | Error _ => 2 | Epsilon _ => 3 | Variance _ => 4 | Std _ => 5
  | Metric _ _ _ => 6 | Diffusion _ _ _ => 7 | Aspect _ _ _ => 8 | Covariance _ _ => 9 end.
Definition read_kind (args : list string) (g : func) : nat :=
  if starts "{e_{" (f_name g) then 2
  else if starts ("{" ++ backslash ++ "v") (f_name g) then 3
  else if starts "{V_{" (f_name g) then 4
  else if starts ("{" ++ backslash ++ "s") (f_name g) then 5
  else if starts "{g_{" (f_name g) then 6
  else if starts ("{" ++ backslash ++ "n") (f_name g) then 7
  else if starts "{s_{" (f_name g) then 8
  else if starts "V_" (f_name g) then 9
  else if list_eq_dec string_dec (f_args g) args then 0 else 1.

Lemma starts_brace p s : user_name s -> starts (String "{" p) s = false.
Proof.
  intros [H _]. destruct (starts (String "{" p) s) eqn:E; [|reflexivity]. apply starts_spec in E. destruct E as (r & ->). exfalso. apply (H (p ++ r)%string). reflexivity.
Qed.
Lemma starts_V s : user_name s -> starts "V_" s = false.
Proof.
  intros [_ H]. destruct (starts "V_" s) eqn:E; [|reflexivity]. apply starts_spec in E. destruct E as (r & ->). exfalso. apply (H r). reflexivity.
Qed.

Section Distinct.
  Variable args : list string.
  Variable fields : list func.
  Hypothesis Hargs : forall f, In f fields -> f_args f = args.
  Hypothesis Huser : forall f, In f fields -> user_name (f_name f).
  Hypothesis Hcodes : NoDup (map code fields).
  Hypothesis Hnames : prefix_free (map f_name fields).
  Hypothesis Hcoords : prefix_free (map clean_latex_name (filter (fun c => negb (String.eqb c "t")) args)).

  Lemma app_omega : args ++ ["omega"] <> args.
  Proof. intros E. apply (f_equal (@List.length string)) in E. rewrite app_length in E. cbn in E. lia. Qed.
  Lemma read_user f : In f fields -> read_kind args f = 0 /\ read_kind args (random f) = 1.
  Proof.
    intros Hf. unfold read_kind, random. cbn [f_name f_args]. pose proof (Huser f Hf) as U. unfold backslash. cbn [append].
    rewrite !(starts_brace _ _ U), (starts_V _ U). rewrite (Hargs f Hf).
    destruct (list_eq_dec string_dec args args); [|congruence]. destruct (list_eq_dec string_dec (args ++ ["omega"]) args) as [E|]; [|auto].
    exfalso. exact (app_omega E).
  Qed.
  Lemma read_symbol q g : symbol_of fields q g -> read_kind args g = kind q.
  Proof.
    destruct q as [i|i|i|i|i|i|i a b|i a b|i a b|i j]; cbn [symbol_of kind].
    - intros H. apply nth_error_In in H. apply read_user. exact H.
    - intros (f & H & ->). apply nth_error_In in H. apply read_user. exact H.
    - intros (f & H & ->). reflexivity.
    - intros (f & H & ->). reflexivity.
    - intros (f & H & ->). reflexivity.
    - intros (f & H & ->). reflexivity.
    - intros (f & H & E). unfold metric_func, bind in E. destruct (index_code f a b); [|discriminate]. injection E as <-. reflexivity.
    - intros (f & H & E). unfold nu_func, bind in E. destruct (index_code f a b); [|discriminate]. injection E as <-. reflexivity.
    - intros (f & H & E). unfold aspect_func, bind in E. destruct (index_code f a b); [|discriminate]. injection E as <-. reflexivity.
    - intros (f & f' & H & H' & E). unfold get_covariance in E. destruct (forallb _ _); [|discriminate]. destruct (list_eq_dec _ _ _); [|discriminate]. injection E as <-. reflexivity.
  Qed.
  Lemma same_code i j f f' : nth_error fields i = Some f -> nth_error fields j = Some f' -> code f = code f' -> i = j.
  Proof.
    intros A B E. apply (proj1 (NoDup_nth_error _) Hcodes); [rewrite map_length; apply nth_error_Some; congruence|].
    rewrite !nth_error_map, A, B. cbn. now rewrite E.
  Qed.
  Lemma same_entry i j f f' a b a' b' c c' : nth_error fields i = Some f -> nth_error fields j = Some f' -> a <= b -> a' <= b' ->
    index_code f a b = Ok c -> index_code f' a' b' = Ok c' -> (code f ++ "," ++ c ++ "}}" = code f' ++ "," ++ c' ++ "}}")%string ->
    i = j /\ a = a' /\ b = b'.
  Proof.
    intros A B L L' E E' H. apply comma_split in H; [|apply code_no_comma|apply code_no_comma]. destruct H as [Hc H]. apply sapp_inv_tail in H.
    split; [eapply same_code; eauto|].
    apply index_code_le in E; [|exact L]. apply index_code_le in E'; [|exact L']. destruct E as (x & y & X & Y & ->), E' as (x' & y' & X' & Y' & ->).
    assert (S : forall h, In h fields -> spatial_coords_code h = map clean_latex_name (filter (fun c => negb (String.eqb c "t")) args)).
    { intros h Hh. unfold spatial_coords_code, spatial_coordinates. now rewrite (Hargs h Hh). }
    rewrite (S f) in X, Y by (eapply nth_error_In; eauto). rewrite (S f') in X', Y' by (eapply nth_error_In; eauto).
    eapply pair_inj_names; eauto.
  Qed.
  Lemma distinct_symbols n d q q' g : exists_in n d q -> exists_in n d q' -> symbol_of fields q g -> symbol_of fields q' g -> q = q'.
  Proof.
    intros X X' H H'. pose proof (read_symbol _ _ H) as K. rewrite (read_symbol _ _ H') in K.
    destruct q as [i|i|i|i|i|i|i a b|i a b|i a b|i j], q' as [i'|i'|i'|i'|i'|i'|i' a' b'|i' a' b'|i' a' b'|i' j']; try discriminate K; clear K; cbn [symbol_of exists_in] in *.
    - f_equal. eapply same_code; eauto.
    - destruct H as (f & H & ->), H' as (f' & H' & E). injection E as E _. f_equal. eapply same_code; eauto. unfold code. now rewrite E.
    - destruct H as (f & H & ->), H' as (f' & H' & E). apply (f_equal f_name) in E. cbn [error f_name] in E. apply sapp_inv_head, sapp_inv_tail in E.
      f_equal. eapply same_code; eauto.
    - destruct H as (f & H & ->), H' as (f' & H' & E). apply (f_equal f_name) in E. cbn [epsilon f_name] in E.
      apply sapp_inv_head, sapp_inv_head, sapp_inv_head, sapp_inv_tail in E. f_equal. eapply same_code; eauto.
    - destruct H as (f & H & ->), H' as (f' & H' & E). apply (f_equal f_name) in E. cbn [variance f_name] in E. apply sapp_inv_head, sapp_inv_tail in E.
      f_equal. eapply same_code; eauto.
    - destruct H as (f & H & ->), H' as (f' & H' & E). apply (f_equal f_name) in E. cbn [std f_name] in E.
      apply sapp_inv_head, sapp_inv_head, sapp_inv_head, sapp_inv_tail in E. f_equal. eapply same_code; eauto.
    - destruct H as (f & H & E), H' as (f' & H' & E'). unfold metric_func, bind in E, E'.
      destruct (index_code f a b) eqn:C; [|discriminate]. destruct (index_code f' a' b') eqn:C'; [|discriminate]. rewrite <- E' in E.
      apply (f_equal (fun r => match r with Ok g => f_name g | Err _ => "" end)) in E. cbn [f_name] in E. apply sapp_inv_head in E.
      edestruct same_entry as (-> & -> & ->); [exact H|exact H'| | |exact C|exact C'|exact E|reflexivity]; tauto.
    - destruct H as (f & H & E), H' as (f' & H' & E'). unfold nu_func, bind in E, E'.
      destruct (index_code f a b) eqn:C; [|discriminate]. destruct (index_code f' a' b') eqn:C'; [|discriminate]. rewrite <- E' in E.
      apply (f_equal (fun r => match r with Ok g => f_name g | Err _ => "" end)) in E. cbn [f_name] in E. apply sapp_inv_head, sapp_inv_head, sapp_inv_head in E.
      edestruct same_entry as (-> & -> & ->); [exact H|exact H'| | |exact C|exact C'|exact E|reflexivity]; tauto.
    - destruct H as (f & H & E), H' as (f' & H' & E'). unfold aspect_func, bind in E, E'.
      destruct (index_code f a b) eqn:C; [|discriminate]. destruct (index_code f' a' b') eqn:C'; [|discriminate]. rewrite <- E' in E.
      apply (f_equal (fun r => match r with Ok g => f_name g | Err _ => "" end)) in E. cbn [f_name] in E. apply sapp_inv_head in E.
      edestruct same_entry as (-> & -> & ->); [exact H|exact H'| | |exact C|exact C'|exact E|reflexivity]; tauto.
    - destruct H as (f & h & A & B & E), H' as (f' & h' & A' & B' & E'). unfold get_covariance in E, E'.
      destruct (forallb _ _); [|discriminate]. destruct (list_eq_dec _ _ _); [|discriminate].
      destruct (forallb _ _); [|discriminate]. destruct (list_eq_dec _ _ _); [|discriminate]. rewrite <- E' in E.
      apply (f_equal (fun r => match r with Ok g => f_name g | Err _ => "" end)) in E. cbn [f_name] in E. apply sapp_inv_head in E.
      destruct (pair_inj_names (map f_name fields) i j i' j' (f_name f) (f_name h) (f_name f') (f_name h')) as [-> ->];
        rewrite ?nth_error_map, ?A, ?B, ?A', ?B'; auto.
  Qed.

  (** and every quantity has one *)
  Lemma symbol_exists q : exists_in (List.length fields) (List.length (filter (fun c => negb (String.eqb c "t")) args)) q -> exists g, symbol_of fields q g.
  Proof.
    assert (N : forall i, i < List.length fields -> exists f, nth_error fields i = Some f).
    { intros i Hi. destruct (nth_error fields i) eqn:E; [eauto|]. apply nth_error_None in E. lia. }
    assert (L : forall i f, nth_error fields i = Some f -> spatial_coordinates f = filter (fun c => negb (String.eqb c "t")) args).
    { intros i f H. apply nth_error_In in H. unfold spatial_coordinates. now rewrite (Hargs f H). }
    destruct q as [i|i|i|i|i|i|i a b|i a b|i a b|i j]; cbn [exists_in symbol_of]; intros H; try (destruct (N i) as (f & Hf); [lia|]); eauto.
    - destruct (index_code_ok f a b) as (c & Hc); [rewrite (L i f Hf); lia..|]. unfold metric_func. eexists. exists f. split; [exact Hf|]. rewrite Hc. reflexivity.
    - destruct (index_code_ok f a b) as (c & Hc); [rewrite (L i f Hf); lia..|]. unfold nu_func. eexists. exists f. split; [exact Hf|]. rewrite Hc. reflexivity.
    - destruct (index_code_ok f a b) as (c & Hc); [rewrite (L i f Hf); lia..|]. unfold aspect_func. eexists. exists f. split; [exact Hf|]. rewrite Hc. reflexivity.
    - destruct (N j) as (f' & Hf'); [lia|]. eexists. exists f, f'. split; [exact Hf|]. split; [exact Hf'|]. unfold get_covariance.
      assert (I : forall h, In h fields -> existsb (fun g => if func_eq_dec h g then true else false) fields = true).
      { intros h Hh. apply existsb_exists. exists h. split; [exact Hh|]. destruct (func_eq_dec h h); congruence. }
      cbn [forallb]. rewrite !I by (eapply nth_error_In; eauto). cbn [andb].
      destruct (list_eq_dec string_dec (f_args f) (f_args f')) as [_|D]; [reflexivity|]. exfalso. apply D.
      rewrite (Hargs f), (Hargs f') by (eapply nth_error_In; eauto). reflexivity.
  Qed.
End Distinct.

(** ** get_covariance *)
Lemma covariance_value fields f g : In f fields -> In g fields -> f_args f = f_args g ->
  get_covariance fields f g = Ok (mkFunc ("V_" ++ f_name f ++ f_name g) (f_args f) Plain).
Proof.
  intros Hf Hg E. unfold get_covariance.
  assert (I : forall h, In h fields -> existsb (fun g => if func_eq_dec h g then true else false) fields = true).
  { intros h Hh. apply existsb_exists. exists h. split; [exact Hh|]. destruct (func_eq_dec h h); congruence. }
  cbn [forallb]. rewrite !I by assumption. cbn [andb]. destruct (list_eq_dec _ _ _); congruence.
Qed.
Lemma covariance_cases fields f g :
  (get_covariance fields f g = Err ValueError <-> ~ (In f fields /\ In g fields))
  /\ (get_covariance fields f g = Err AssertionError <-> In f fields /\ In g fields /\ f_args f <> f_args g).
Proof.
  unfold get_covariance.
  assert (I : forall h, existsb (fun g => if func_eq_dec h g then true else false) fields = true <-> In h fields).
  { intros h. rewrite existsb_exists. split.
    - intros (x & Hx & E). destruct (func_eq_dec h x); [congruence|discriminate].
    - intros Hh. exists h. split; [exact Hh|]. destruct (func_eq_dec h h); congruence. }
  cbn [forallb]. pose proof (I f) as If. pose proof (I g) as Ig. destruct (existsb _ fields) eqn:A in |- *; destruct (existsb _ fields) eqn:B in |- *; cbn [andb].
  all: rewrite ?A in If; rewrite ?B in Ig.
  - destruct (list_eq_dec _ _ _); split; split; try discriminate; try tauto; try (intros; exfalso; tauto).
  - split; split; try discriminate; try tauto. intros _ [_ H]. apply Ig in H. discriminate. intros (_ & H & _). apply Ig in H. discriminate.
  - split; split; try discriminate; try tauto. intros _ [H _]. apply If in H. discriminate. intros (H & _). apply If in H. discriminate.
  - split; split; try discriminate; try tauto. intros _ [H _]. apply If in H. discriminate. intros (H & _). apply If in H. discriminate.
Qed.
Lemma covariance_asymmetric fields i j f g a b : prefix_free (map f_name fields) -> nth_error fields i = Some f -> nth_error fields j = Some g -> i <> j ->
  get_covariance fields f g = Ok a -> get_covariance fields g f = Ok b -> a <> b.
Proof.
  intros P A B N E E'. unfold get_covariance in E, E'.
  destruct (forallb _ _); [|discriminate]. destruct (list_eq_dec _ _ _); [|discriminate].
  destruct (forallb _ _); [|discriminate]. destruct (list_eq_dec _ _ _); [|discriminate]. injection E as <-. injection E' as <-.
  intros E. injection E as E.
  destruct (pair_inj_names (map f_name fields) i j j i (f_name f) (f_name g) (f_name g) (f_name f)) as [? ?]; rewrite ?nth_error_map, ?A, ?B; auto.
Qed.
Lemma tensor_sym entry n : (forall i j, i < n -> j < n -> exists g, entry i j = Ok g) -> (forall i j, entry i j = entry j i) ->
  exists m, tensor entry n = Ok m /\ forall i j, i < n -> j < n ->
    exists r r' e, nth_error m i = Some r /\ nth_error r j = Some e /\ nth_error m j = Some r' /\ nth_error r' i = Some e.
Proof.
  intros H S. destruct (tensor_ok entry n H) as (m & Hm & E). exists m. split; [exact Hm|]. intros i j Hi Hj.
  destruct (E i j Hi Hj) as (r & g & A & B & C). destruct (E j i Hj Hi) as (r' & g' & A' & B' & C').
  rewrite S, C' in C. injection C as <-. eauto 10.
Qed.
Lemma tensors_symmetric f : exists g n s, metric f = Ok g /\ diffusion f = Ok n /\ aspect f = Ok s /\
  forall m, In m [g; n; s] -> forall i j, i < List.length (spatial_coordinates f) -> j < List.length (spatial_coordinates f) ->
  exists r r' e, nth_error m i = Some r /\ nth_error r j = Some e /\ nth_error m j = Some r' /\ nth_error r' i = Some e.
Proof.
  destruct (tensor_sym (metric_func f) (List.length (spatial_coordinates f))) as (g & Hg & Eg); [|apply metric_func_sym|].
  { intros i j Hi Hj. destruct (index_code_ok f i j Hi Hj) as (c & Hc). unfold metric_func. rewrite Hc. eexists. reflexivity. }
  destruct (tensor_sym (nu_func f) (List.length (spatial_coordinates f))) as (n & Hn & En); [|apply nu_func_sym|].
  { intros i j Hi Hj. destruct (index_code_ok f i j Hi Hj) as (c & Hc). unfold nu_func. rewrite Hc. eexists. reflexivity. }
  destruct (tensor_sym (aspect_func f) (List.length (spatial_coordinates f))) as (s & Hs & Es); [|apply aspect_func_sym|].
  { intros i j Hi Hj. destruct (index_code_ok f i j Hi Hj) as (c & Hc). unfold aspect_func. rewrite Hc. eexists. reflexivity. }
  exists g, n, s. repeat (split; [assumption|]). intros m [<-|[<-|[<-|[]]]]; assumption.
Qed.
Lemma entry_index_error f i j : List.length (spatial_coordinates f) <= i \/ List.length (spatial_coordinates f) <= j ->
  metric_func f i j = Err IndexError /\ nu_func f i j = Err IndexError /\ aspect_func f i j = Err IndexError.
Proof. intros H. unfold metric_func, nu_func, aspect_func. rewrite (index_code_err f i j H). auto. Qed.

(** the kind of each quantity *)
Lemma symbol_kind args fields : (forall f, In f fields -> f_args f = args /\ f_assume f = Plain) ->
  forall q g, symbol_of fields q g ->
  f_args g = (args ++ (if depends_on_omega q then ["omega"] else []))%list /\
  f_assume g = (if is_positive q then Positive else if is_entry q then Real else Plain).
Proof.
  intros H q g. assert (N : forall i f, nth_error fields i = Some f -> f_args f = args /\ f_assume f = Plain) by (intros i f E; apply H; exact (nth_error_In _ _ E)).
  destruct q; cbn [symbol_of depends_on_omega is_positive is_entry]; rewrite ?app_nil_r.
  - intros E. exact (N _ _ E).
  - intros (f & E & ->). destruct (N _ _ E) as [<- _]. split; reflexivity.
  - intros (f & E & ->). destruct (N _ _ E) as [<- _]. split; reflexivity.
  - intros (f & E & ->). destruct (N _ _ E) as [<- _]. split; reflexivity.
  - intros (f & E & ->). destruct (N _ _ E) as [<- _]. split; reflexivity.
  - intros (f & E & ->). destruct (N _ _ E) as [<- _]. split; reflexivity.
  - intros (f & E & G). destruct (N _ _ E) as [<- _]. unfold metric_func in G. destruct (index_code f a b); [|discriminate]. injection G as <-. split; reflexivity.
  - intros (f & E & G). destruct (N _ _ E) as [<- _]. unfold nu_func in G. destruct (index_code f a b); [|discriminate]. injection G as <-. split; reflexivity.
  - intros (f & E & G). destruct (N _ _ E) as [<- _]. unfold aspect_func in G. destruct (index_code f a b); [|discriminate]. injection G as <-. split; reflexivity.
  - intros (f & f' & E & E' & G). destruct (N _ _ E) as [<- _]. unfold get_covariance in G. destruct (forallb _ _); [|discriminate].
    destruct (list_eq_dec _ _ _); [|discriminate]. injection G as <-. split; reflexivity.
Qed.
