(** Proofs about PDESystem objects. *)
From Coq Require Import List Arith ZArith Bool String Ascii Lia Permutation.
From Verif Require Import PyBase PyBaseFacts SymModel PDEModel StrModel StrSpec StrProofs SysObjModel SysObjSpec.
Import ListNotations.
Close Scope Q_scope.
Open Scope list_scope.
Open Scope nat_scope.

Section W.
  Variable enum : list sx -> list sx.
  Variable str : sx -> string.
  Notation step := (step enum str).
  Notation run := (run enum str).
  Notation trace := (trace enum str).

  Lemma nth_app {A} (l : list A) x o y : nth_error l o = Some y -> nth_error (l ++ [x]) o = Some y.
  Proof. intros H. rewrite nth_error_app1; [exact H|]. apply nth_error_Some. congruence. Qed.

  Lemma set_same {A} (l : list A) i v z : nth_error l i = Some z -> nth_error (set_nth i v l) i = Some v.
  Proof.
    intros H. rewrite nth_error_set_nth, Nat.eqb_refl.
    assert (i < List.length l) by (apply nth_error_Some; congruence).
    destruct (Nat.ltb_spec i (List.length l)); [reflexivity|lia].
  Qed.
  Lemma set_other {A} (l : list A) i j v : i <> j -> nth_error (set_nth i v l) j = nth_error l j.
  Proof. intros H. rewrite nth_error_set_nth. destruct (Nat.eqb_spec i j); [contradiction|reflexivity]. Qed.

  Ltac cases := repeat match goal with
    | |- context [match ?x with _ => _ end] => let E := fresh "E" in destruct x eqn:E
    end.

  (** a list that is not changed by a statement *)
  Lemma step_list w x a L : nth_error (w_lists w) a = Some L ->
    match x with Append b _ | SetEntry b _ _ => b <> a | _ => True end ->
    nth_error (w_lists (snd (step w x))) a = Some L.
  Proof.
    intros H N. destruct x; cbn; cases; cbn; auto using nth_app;
      rewrite set_other by exact N; exact H.
  Qed.

  (** the systems *)
  Lemma step_system w x o y : nth_error (w_systems w) o = Some y ->
    exists y', nth_error (w_systems (snd (step w x))) o = Some y'
      /\ y_name y' = y_name y /\ y_attr y' = y_attr y /\ (not_reassigned o x -> y' = y).
  Proof.
    intros H. destruct x; cbn; cases; cbn; eauto 6 using nth_app.
    destruct (Nat.eq_dec o0 o) as [->|N].
    - rewrite E in H. injection H as ->. eexists. split; [exact (set_same _ _ _ _ E)|].
      split; [reflexivity|]. split; [reflexivity|]. intros C. contradiction.
    - rewrite set_other by exact N. eauto 6.
  Qed.

  Lemma run_system h : forall w o y, nth_error (w_systems w) o = Some y ->
    exists y', nth_error (w_systems (run w h)) o = Some y'
      /\ y_name y' = y_name y /\ y_attr y' = y_attr y /\ (Forall (not_reassigned o) h -> y' = y).
  Proof.
    induction h as [|x h IH]; intros w o y H; cbn.
    - exists y. auto.
    - destruct (step_system w x o y H) as [y1 [H1 [N1 [A1 R1]]]].
      destruct (IH _ _ _ H1) as [y2 [H2 [N2 [A2 R2]]]].
      exists y2. split; [exact H2|]. split; [congruence|]. split; [congruence|].
      intros F. inversion F; subst. rewrite R2, R1; auto.
  Qed.

  Lemma undisturbed_list a o x : undisturbed a o x ->
    match x with Append b _ | SetEntry b _ _ => b <> a | _ => True end.
  Proof. destruct x; cbn; auto. Qed.
  Lemma undisturbed_system a o x : undisturbed a o x -> not_reassigned o x.
  Proof. destruct x; cbn; auto. Qed.

  Lemma run_has h : forall w o y L, has w o y L -> Forall (undisturbed (y_list y) o) h -> has (run w h) o y L.
  Proof.
    induction h as [|x h IH]; intros w o y L [H1 H2] F; cbn; [split; assumption|].
    inversion F; subst. apply IH; [|assumption]. split.
    - destruct (step_system w x o y H1) as [y' [E [_ [_ R]]]]. rewrite E. f_equal. apply R.
      eapply undisturbed_system; eassumption.
    - apply step_list; [exact H2|]. eapply undisturbed_list; eassumption.
  Qed.

  (** a generator is changed by its own next only *)
  Lemma step_gen w x g s : nth_error (w_gens w) g = Some s -> is_next g x = false ->
    nth_error (w_gens (snd (step w x))) g = Some s.
  Proof.
    intros H N. destruct x; cbn in *; cases; cbn; auto using nth_app;
      rewrite nth_error_set_nth; rewrite N; exact H.
  Qed.

  (** what is left to a generator *)
  Definition at_pos (a o : nat) (L : list equation) (s : gen) (i : nat) : Prop :=
    match s with
    | GStart o' => o' = o /\ i = 0
    | GAt a' j => a' = a /\ j = i
    | GDone => List.length L <= i
    end.
  Definition rest (L : list equation) (i m : nat) : list (res answer) := once_each (skipn i L) m.

  Lemma rest_S L i m :
    rest L i (S m) = match nth_error L i with
                     | Some q => Ok (AEq q) :: rest L (S i) m
                     | None => Ok AStop :: rest L i m
                     end.
  Proof.
    unfold rest, once_each. revert i. induction L as [|q L IH]; intros i.
    - destruct i; cbn; rewrite firstn_nil; cbn; rewrite Nat.sub_0_r; reflexivity.
    - destruct i as [|i]; [reflexivity|]. cbn [skipn nth_error]. rewrite IH. destruct (nth_error L i); reflexivity.
  Qed.
  Lemma rest_done L i m : List.length L <= i -> rest L i m = repeat (Ok AStop) m.
  Proof.
    intros H. unfold rest, once_each. rewrite skipn_all2 by exact H. rewrite firstn_nil. cbn. rewrite Nat.sub_0_r. reflexivity.
  Qed.

  Definition uses (g : nat) (h : list op) : nat := List.length (filter (is_next g) h).

  Lemma next_step w o y L g s i : has w o y L -> nth_error (w_gens w) g = Some s -> at_pos (y_list y) o L s i ->
    exists s' i', nth_error (w_gens (snd (step w (Next g)))) g = Some s' /\ at_pos (y_list y) o L s' i'
      /\ forall m, fst (step w (Next g)) :: rest L i' m = rest L i (S m).
  Proof.
    intros [H1 H2] G P.
    assert (LA : list_at w (y_list y) = L) by (unfold list_at; apply nth_error_nth; exact H2).
    cbn [SysObjModel.step]. rewrite G. destruct s as [o'|a' j|]; cbn in P.
    - destruct P as [-> ->]. rewrite H1. rewrite LA. unfold advance.
      destruct (nth_error L 0) as [q|] eqn:E; cbn [fst snd w_gens].
      + exists (GAt (y_list y) 1), 1. split; [exact (set_same _ _ _ _ G)|].
        split; [split; reflexivity|]. intros m. rewrite (rest_S L 0 m), E. reflexivity.
      + exists GDone, 0. split; [exact (set_same _ _ _ _ G)|].
        split; [cbn; apply nth_error_None; exact E|]. intros m. rewrite (rest_S L 0 m), E. reflexivity.
    - destruct P as [-> ->]. rewrite LA. unfold advance.
      destruct (nth_error L i) as [q|] eqn:E; cbn [fst snd w_gens].
      + exists (GAt (y_list y) (S i)), (S i). split; [exact (set_same _ _ _ _ G)|].
        split; [split; reflexivity|]. intros m. rewrite (rest_S L i m), E. reflexivity.
      + exists GDone, i. split; [exact (set_same _ _ _ _ G)|].
        split; [cbn; apply nth_error_None; exact E|]. intros m. rewrite (rest_S L i m), E. reflexivity.
    - exists GDone, i. split; [exact G|]. split; [exact P|]. intros m. rewrite !rest_done by exact P. reflexivity.
  Qed.

  Lemma nexts_from h : forall w o y L g s i, has w o y L -> nth_error (w_gens w) g = Some s -> at_pos (y_list y) o L s i ->
    Forall (undisturbed (y_list y) o) h -> nexts g (trace w h) = rest L i (uses g h).
  Proof.
    induction h as [|x h IH]; intros w o y L g s i H G P F.
    - cbn. unfold rest, once_each. cbn. reflexivity.
    - inversion F; subst. cbn [SysObjModel.trace].
      assert (H' : has (snd (step w x)) o y L) by (apply (run_has [x]); [exact H|constructor; [assumption|constructor]]).
      unfold nexts, uses. cbn [filter fst]. destruct (is_next g x) eqn:N.
      + destruct x; try discriminate N. cbn in N. apply Nat.eqb_eq in N. subst g0.
        destruct (next_step w o y L g s i H G P) as [s' [i' [G' [P' E]]]].
        cbn [map snd List.length]. change (S (List.length (filter (is_next g) h))) with (S (uses g h)). rewrite <- E.
        f_equal. exact (IH _ _ _ _ _ _ _ H' G' P' H3).
      + exact (IH _ _ _ _ _ _ _ H' (step_gen w x g s G N) P H3).
  Qed.

  Lemma iteration w o y L h : has w o y L -> Forall (undisturbed (y_list y) o) h ->
    nexts (List.length (w_gens w)) (trace w (Iter o :: h)) = once_each L (uses (List.length (w_gens w)) h).
  Proof.
    intros H F. destruct H as [H1 H2]. unfold nexts. cbn [SysObjModel.trace filter fst is_next].
    fold (nexts (List.length (w_gens w)) (trace (snd (step w (Iter o))) h)).
    rewrite (nexts_from h _ o y L _ (GStart o) 0); [reflexivity| | | |exact F].
    - cbn. rewrite H1. split; assumption.
    - cbn. rewrite H1. cbn. rewrite nth_error_app2, Nat.sub_diag by lia. reflexivity.
    - split; reflexivity.
  Qed.

  (** an exhausted generator stays so *)
  Lemma done_stays h : forall w g, nth_error (w_gens w) g = Some GDone -> nth_error (w_gens (run w h)) g = Some GDone.
  Proof.
    induction h as [|x h IH]; intros w g H; [exact H|]. cbn [SysObjModel.run fold_left]. apply IH.
    destruct (is_next g x) eqn:N; [|apply step_gen; assumption].
    destruct x; try discriminate N. cbn in N. apply Nat.eqb_eq in N. subst. cbn. rewrite H. exact H.
  Qed.
  Lemma exhausted w g h : fst (step w (Next g)) = Ok AStop ->
    fst (step (run (snd (step w (Next g))) h) (Next g)) = Ok AStop.
  Proof.
    intros H.
    assert (D : nth_error (w_gens (snd (step w (Next g)))) g = Some GDone).
    { revert H. cbn. destruct (nth_error (w_gens w) g) as [s|] eqn:G; [|discriminate].
      destruct s as [o|a i|]; unfold advance; [|..].
      - destruct (nth_error (w_systems w) o); [|discriminate]. destruct (nth_error _ 0); [discriminate|].
        intros _. exact (set_same _ _ _ _ G).
      - destruct (nth_error _ i); [discriminate|]. intros _. exact (set_same _ _ _ _ G).
      - intros _. exact G. }
    apply (done_stays h) in D. revert D. generalize (run (snd (step w (Next g))) h) as w2. intros w2 D. cbn. rewrite D. reflexivity.
  Qed.

  (** a loop that appends never ends *)
  Lemma growing q n : forall w o y L g s i, has w o y L -> nth_error (w_gens w) g = Some s -> at_pos (y_list y) o L s i ->
    i < List.length L ->
    Forall (fun r => exists e, r = Ok (AEq e)) (nexts g (trace w (List.concat (repeat [Next g; Append (y_list y) q] n)))).
  Proof.
    induction n as [|n IH]; intros w o y L g s i H G P I; [constructor|].
    destruct (nth_error L i) as [e|] eqn:E; [|apply nth_error_None in E; lia].
    assert (LA : list_at w (y_list y) = L) by (destruct H; unfold list_at; apply nth_error_nth; assumption).
    assert (S1 : step w (Next g) = (Ok (AEq e), mkW (w_lists w) (w_systems w) (set_nth g (GAt (y_list y) (S i)) (w_gens w)))).
    { cbn. rewrite G. destruct s as [o'|a' j|]; cbn in P.
      - destruct P as [-> ->]. destruct H as [-> _]. rewrite LA. unfold advance. rewrite E. reflexivity.
      - destruct P as [-> ->]. rewrite LA. unfold advance. rewrite E. reflexivity.
      - lia. }
    cbn [repeat List.concat List.app SysObjModel.trace]. rewrite S1. cbn [fst snd].
    unfold nexts. cbn [filter fst is_next]. rewrite Nat.eqb_refl. cbn [map snd].
    constructor; [eauto|]. destruct H as [H1 H2].
    apply (IH _ o y (L ++ [q]) g (GAt (y_list y) (S i)) (S i)).
    - split; cbn.
      + rewrite H2. exact H1.
      + rewrite H2. cbn. exact (set_same _ _ _ _ H2).
    - cbn. rewrite H2. cbn. exact (set_same _ _ _ _ G).
    - split; reflexivity.
    - rewrite app_length. cbn. lia.
  Qed.

  (** indices *)
  Lemma index_pos w o y L k q : has w o y L -> (0 <= k)%Z -> nth_error L (Z.to_nat k) = Some q ->
    step w (Item o k) = (Ok (AEq q), w).
  Proof.
    intros [H1 H2] K N. cbn. rewrite H1.
    assert (LA : list_at w (y_list y) = L) by (unfold list_at; apply nth_error_nth; exact H2).
    rewrite LA. unfold getitem. destruct (Z.ltb_spec k 0); [lia|]. cbn beta zeta.
    destruct (Z.ltb_spec k 0); [lia|]. rewrite N. reflexivity.
  Qed.
  Lemma index_neg w o y L k q : has w o y L -> (k < 0)%Z -> nth_error (rev L) (Z.to_nat (- k - 1)) = Some q ->
    step w (Item o k) = (Ok (AEq q), w).
  Proof.
    intros [H1 H2] K N. cbn. rewrite H1.
    assert (LA : list_at w (y_list y) = L) by (unfold list_at; apply nth_error_nth; exact H2).
    assert (B : Z.to_nat (- k - 1) < List.length L) by (rewrite <- rev_length; apply nth_error_Some; congruence).
    rewrite LA. unfold getitem. destruct (Z.ltb_spec k 0); [|lia]. cbn beta zeta.
    destruct (Z.ltb_spec (k + Z.of_nat (List.length L)) 0); [lia|].
    apply (nth_error_nth _ _ q) in N. rewrite rev_nth in N by exact B.
    replace (List.length L - S (Z.to_nat (- k - 1))) with (Z.to_nat (k + Z.of_nat (List.length L))) in N by lia.
    rewrite (nth_error_nth' L q) by lia. rewrite N. reflexivity.
  Qed.
  Lemma index_out w o y L k : has w o y L -> (k < - Z.of_nat (List.length L) \/ Z.of_nat (List.length L) <= k)%Z ->
    step w (Item o k) = (Err IndexError, w).
  Proof.
    intros [H1 H2] K. cbn. rewrite H1.
    assert (LA : list_at w (y_list y) = L) by (unfold list_at; apply nth_error_nth; exact H2).
    rewrite LA. unfold getitem. destruct (Z.ltb_spec k 0); cbn beta zeta.
    - destruct (Z.ltb_spec (k + Z.of_nat (List.length L)) 0); [reflexivity|lia].
    - destruct (Z.ltb_spec k 0); [lia|].
      destruct (nth_error L (Z.to_nat k)) eqn:E; [|reflexivity].
      assert (Z.to_nat k < List.length L) by (apply nth_error_Some; congruence). lia.
  Qed.

  Lemma reads w x : reading x -> w_lists (snd (step w x)) = w_lists w /\ w_systems (snd (step w x)) = w_systems w.
  Proof. destruct x; cbn; intros H; try contradiction; cases; cbn; auto. Qed.

  (** creation *)
  Lemma new_list w a name w' : step w (New (ArgList a) name) = (Ok ADone, w') ->
    exists y L, has w' (List.length (w_systems w)) y L /\ y_list y = a /\ nth_error (w_lists w) a = Some L
      /\ pde_system enum L = Ok (y_attr y) /\ y_name y = name /\ w_lists w' = w_lists w.
  Proof.
    cbn. destruct (nth_error (w_lists w) a) as [L|] eqn:E; [|discriminate].
    destruct (pde_system enum L) as [p|e] eqn:Q; [|discriminate]. intros X. injection X as <-.
    exists (mkSys a name p), L. split; [|auto 6]. split; cbn; [|exact E].
    rewrite nth_error_app2, Nat.sub_diag by lia. reflexivity.
  Qed.
  Lemma new_eq w q name w' : step w (New (ArgEq q) name) = (Ok ADone, w') ->
    exists y, has w' (List.length (w_systems w)) y [q] /\ y_list y = List.length (w_lists w)
      /\ pde_system enum [q] = Ok (y_attr y) /\ y_name y = name.
  Proof.
    cbn [SysObjModel.step]. destruct (pde_system enum [q]) as [p|e] eqn:Q; [|discriminate]. intros X. injection X as <-.
    exists (mkSys (List.length (w_lists w)) name p). split; [|auto]. split; cbn.
    - rewrite nth_error_app2, Nat.sub_diag by lia. reflexivity.
    - rewrite nth_error_app2, Nat.sub_diag by lia. reflexivity.
  Qed.

  (** every system of a program has its list *)
  Definition sound (w : world) : Prop := forall o y, nth_error (w_systems w) o = Some y -> y_list y < List.length (w_lists w).
  Lemma step_lists_length w x : List.length (w_lists w) <= List.length (w_lists (snd (step w x))).
  Proof. destruct x; cbn; cases; cbn; rewrite ?app_length, ?set_nth_length; cbn; lia. Qed.
  Lemma step_sound w x : sound w -> sound (snd (step w x)).
  Proof.
    intros S o y H. pose proof (step_lists_length w x) as LE.
    assert (K : nth_error (w_systems w) o = Some y -> y_list y < List.length (w_lists (snd (step w x)))).
    { intros E. specialize (S o y E). lia. }
    destruct x; cbn in *; repeat match goal with
      | H : context [match ?x with _ => _ end] |- _ => let E := fresh "E" in destruct x eqn:E
      end; cbn in *; auto.
    - destruct (Nat.lt_ge_cases o (List.length (w_systems w))) as [C|C].
      + apply K. rewrite nth_error_app1 in H by exact C. exact H.
      + rewrite nth_error_app2 in H by exact C. destruct (o - List.length (w_systems w)) as [|n]; cbn in H;
          [|destruct n; discriminate H]. injection H as <-. cbn. apply nth_error_Some. congruence.
    - destruct (Nat.lt_ge_cases o (List.length (w_systems w))) as [C|C].
      + apply K. rewrite nth_error_app1 in H by exact C. exact H.
      + rewrite nth_error_app2 in H by exact C. destruct (o - List.length (w_systems w)) as [|n]; cbn in H;
          [|destruct n; discriminate H]. injection H as <-. cbn. rewrite app_length. cbn. lia.
    - destruct (Nat.eq_dec o0 o) as [->|N].
      + rewrite (set_same _ _ _ _ E) in H. injection H as <-. cbn. apply nth_error_Some. congruence.
      + rewrite set_other in H by exact N. apply K. exact H.
  Qed.
  Lemma run_sound h : forall w, sound w -> sound (run w h).
  Proof. induction h as [|x h IH]; intros w S; cbn; [exact S|]. apply IH, step_sound, S. Qed.
  Lemma reachable_has h o y : nth_error (w_systems (run empty_world h)) o = Some y -> exists L, has (run empty_world h) o y L.
  Proof.
    intros H. assert (S : sound (run empty_world h)).
    { apply run_sound. intros o' y' E. destruct o'; discriminate E. }
    specialize (S o y H). destruct (nth_error (w_lists (run empty_world h)) (y_list y)) as [L|] eqn:E.
    - exists L. split; assumption.
    - apply nth_error_None in E. lia.
  Qed.
End W.

(** lines of a text *)
Lemma lines_cons c s : lines (String c s) = if Ascii.eqb c (ascii_of_nat 10) then EmptyString :: lines s
                  else match lines s with l :: ls => String c l :: ls | [] => [String c EmptyString] end.
Proof. reflexivity. Qed.
Lemma lines_ne s : lines s <> [].
Proof. destruct s as [|c s]; [discriminate|]. rewrite lines_cons. destruct (Ascii.eqb c _); [discriminate|]. destruct (lines s); discriminate. Qed.
Lemma lines_line a b l ls : lines a = [a] -> lines b = l :: ls -> lines (a ++ b) = (a ++ l)%string :: ls.
Proof.
  intros A B. revert A. induction a as [|c a IH]; intros A; [exact B|].
  change ((String c a ++ b)%string) with (String c (a ++ b)%string). rewrite lines_cons in A |- *.
  destruct (Ascii.eqb c (ascii_of_nat 10)); [discriminate A|].
  destruct (lines a) as [|l0 l'] eqn:LA; [exfalso; exact (lines_ne a LA)|].
  injection A as A1 A2. subst. rewrite IH by reflexivity. reflexivity.
Qed.
Lemma sapp_assoc a b c : ((a ++ b) ++ c)%string = (a ++ b ++ c)%string.
Proof. induction a as [|x a IH]; cbn; [reflexivity|]. rewrite IH. reflexivity. Qed.
Lemma sapp_nil a : (a ++ "")%string = a.
Proof. induction a as [|x a IH]; cbn; [reflexivity|]. rewrite IH. reflexivity. Qed.
Lemma lines_nl a b : lines a = [a] -> lines (a ++ nl ++ b) = a :: lines b.
Proof.
  intros A. rewrite (lines_line a (nl ++ b) "" (lines b) A); [|reflexivity]. rewrite sapp_nil. reflexivity.
Qed.
Lemma one_line_app a b : one_line a -> one_line b -> one_line (a ++ b).
Proof. unfold one_line. intros A B. rewrite (lines_line a b b [] A B). reflexivity. Qed.

Lemma join_listed sep l : join sep l = listed sep l.
Proof.
  destruct l as [|a r]; [reflexivity|]. revert a. induction r as [|b r IH]; intros a; [reflexivity|].
  change (join sep (a :: b :: r)) with (a ++ sep ++ join sep (b :: r))%string. rewrite IH.
  cbn [listed fold_left].
  enough (X : forall r p q, fold_left (fun t b => t ++ sep ++ b)%string r (p ++ q)%string = (p ++ fold_left (fun t b => t ++ sep ++ b)%string r q)%string).
  { rewrite (X r a (sep ++ b)%string). f_equal. rewrite (X r sep b). reflexivity. }
  clear. induction r as [|c r IH]; intros p q; cbn; [reflexivity|]. rewrite sapp_assoc. apply IH.
Qed.
Lemma listed_line sep l : one_line sep -> Forall one_line l -> one_line (listed sep l).
Proof.
  intros S F. destruct l as [|a r]; [reflexivity|]. inversion F; subst. cbn.
  clear F. revert a H1. induction r as [|b r IH]; intros a A; cbn; [exact A|].
  inversion H2; subst. apply IH; [assumption|]. apply one_line_app; [exact A|]. apply one_line_app; assumption.
Qed.
Lemma one_line_chars s : one_line s <-> ~ In (ascii_of_nat 10) (chars s).
Proof.
  unfold one_line. induction s as [|c s IH]; [split; [intros _ []|reflexivity]|].
  rewrite lines_cons. cbn [chars In].
  destruct (Ascii.eqb c (ascii_of_nat 10)) eqn:E.
  - apply Ascii.eqb_eq in E. split; [intros X; discriminate X|]. intros X. exfalso. apply X. left. exact E.
  - apply Ascii.eqb_neq in E. split.
    + intros X [Y|Y]; [exact (E Y)|]. apply IH; [|exact Y]. destruct (lines s) eqn:LS; [exfalso; exact (lines_ne s LS)|].
      injection X as -> ->. reflexivity.
    + intros X. destruct IH as [_ IH]. rewrite IH; [reflexivity|]. intros Y. apply X. right. exact Y.
Qed.
Lemma norm_line s : one_line s -> one_line (norm s).
Proof.
  rewrite !one_line_chars. unfold norm. intros H I. apply H. clear H.
  induction s as [|c s IH]; cbn [chars flat_map of_chars] in *; [exact I|].
  destruct (existsb (Ascii.eqb c) _); cbn [List.app] in I; [right; apply IH; exact I|].
  destruct (existsb (Ascii.eqb c) _); cbn [List.app of_chars chars] in I.
  - destruct I as [I|I]; [discriminate I|]. right. apply IH. exact I.
  - destruct I as [I|I]; [left; exact I|right; apply IH; exact I].
Qed.

Section Text.
  Variable enum : list sx -> list sx.
  Variable str : sx -> string.
  Hypothesis L : forall e, one_line (str e).

  Lemma map_line (f : sx -> string) l : (forall e, one_line (f e)) -> Forall one_line (map f l).
  Proof. intros H. induction l; constructor; auto. Qed.

  Lemma show_lines name S : one_line name ->
    lines (show enum str name S) =
      [(if String.eqb name "" then "PDE System :" else "PDE System '" ++ name ++ "':")%string;
       ("        prognostic functions : " ++ listed ", " (map str (s_prognostic S)))%string;
       ("        constant functions   : " ++ listed ", " (map str (enum (s_constant S))))%string;
       ("        exogeneous functions : " ++ listed ", " (map str (enum (s_exogenous S))))%string;
       ("        constants            : " ++ listed ", " (map (fun c => norm (str c)) (enum (s_constants S))))%string;
       "        "%string] ++
      match s_trainable S with
      | [] => []
      | _ => [("        trainable scalars    : " ++ listed "," (map (fun c => norm (str c)) (enum (s_trainable S))))%string; "            "%string]
      end.
  Proof.
    intros N. unfold show. cbv zeta. rewrite !join_listed.
    rewrite (map_ext (fun c => clean_latex_name (str c)) (fun c => norm (str c))) by (intros; apply clean_norm).
    rewrite (map_ext (fun c => clean_latex_name (str c)) (fun c => norm (str c))) by (intros; apply clean_norm).
    set (p := listed ", " (map str (s_prognostic S))).
    set (c := listed ", " (map str (enum (s_constant S)))).
    set (x := listed ", " (map str (enum (s_exogenous S)))).
    set (k := listed ", " (map (fun c => norm (str c)) (enum (s_constants S)))).
    set (r := listed "," (map (fun c => norm (str c)) (enum (s_trainable S)))).
    assert (P : one_line p) by (apply listed_line; [reflexivity|apply map_line; exact L]).
    assert (C : one_line c) by (apply listed_line; [reflexivity|apply map_line; exact L]).
    assert (X : one_line x) by (apply listed_line; [reflexivity|apply map_line; exact L]).
    assert (K : one_line k) by (apply listed_line; [reflexivity|apply map_line; intros e; apply norm_line, L]).
    assert (R : one_line r) by (apply listed_line; [reflexivity|apply map_line; intros e; apply norm_line, L]).
    assert (T : forall n b, one_line n -> lines ("PDE System " ++ n ++ ":" ++ nl ++ b) = ("PDE System " ++ n ++ ":")%string :: lines b).
    { intros n b H. rewrite <- (sapp_assoc n), <- sapp_assoc. apply lines_nl.
      apply one_line_app; [reflexivity|]. apply one_line_app; [exact H|reflexivity]. }
    assert (A : forall h v b, one_line h -> one_line v -> lines (h ++ v ++ nl ++ b) = (h ++ v)%string :: lines b).
    { intros h v b H V. rewrite <- sapp_assoc. apply lines_nl. apply one_line_app; assumption. }
    assert (B : forall tail, lines (("PDE System " ++ (if String.eqb name "" then "" else "'" ++ name ++ "'") ++ ":" ++ nl ++
        "        prognostic functions : " ++ p ++ nl ++ "        constant functions   : " ++ c ++ nl ++
        "        exogeneous functions : " ++ x ++ nl ++ "        constants            : " ++ k ++ nl ++ tail))
      = [(if String.eqb name "" then "PDE System :" else "PDE System '" ++ name ++ "':")%string;
         ("        prognostic functions : " ++ p)%string; ("        constant functions   : " ++ c)%string;
         ("        exogeneous functions : " ++ x)%string; ("        constants            : " ++ k)%string] ++ lines tail).
    { intros tail. rewrite T.
      - rewrite !A by (try assumption; reflexivity). cbn [List.app]. f_equal.
        destruct (String.eqb name ""); [reflexivity|]. rewrite !sapp_assoc. reflexivity.
      - destruct (String.eqb name ""); [reflexivity|]. apply one_line_app; [reflexivity|]. apply one_line_app; [exact N|reflexivity]. }
    destruct (s_trainable S) as [|z zs].
    - rewrite B. reflexivity.
    - repeat rewrite sapp_assoc. rewrite B.
      rewrite lines_nl by reflexivity. rewrite A by (try assumption; reflexivity). reflexivity.
  Qed.
End Text.

Lemma infix_app_l p a b : infix p a -> infix p (a ++ b).
Proof. intros [u [v ->]]. exists u, (v ++ b)%string. rewrite !sapp_assoc. reflexivity. Qed.
Lemma infix_app_r p a b : infix p b -> infix p (a ++ b).
Proof. intros [u [v ->]]. exists (a ++ u)%string, v. rewrite !sapp_assoc. reflexivity. Qed.
Lemma infix_listed sep l a : In a l -> infix a (listed sep l).
Proof.
  destruct l as [|b r]; intros H; [destruct H|]. cbn.
  assert (G : forall r b, infix a b -> infix a (fold_left (fun t b => t ++ sep ++ b)%string r b)).
  { intros r'. induction r' as [|c r' IH]; intros b' I; cbn; [exact I|]. apply IH, infix_app_l, I. }
  assert (R : infix a a) by (exists ""%string, ""%string; rewrite sapp_nil; reflexivity).
  destruct H as [->|H]; [apply G, R|].
  revert b. induction r as [|c r IH]; intros b; [destruct H|]. cbn. destruct H as [->|H].
  - apply G. do 2 apply infix_app_r. exact R.
  - apply IH, H.
Qed.

From Verif Require Import PDESpec PDEProofs.
Lemma shown_function enum str (E : forall l, Permutation (enum l) l) (N : forall e, one_line (str e)) eqs S name :
  one_line name -> pde_system enum eqs = Ok S -> forall f, a_function f -> occurs f eqs ->
  exists l, In l (firstn 3 (tl (lines (show enum str name S)))) /\ infix (str f) l.
Proof.
  intros O H f A F. rewrite (show_lines enum str N name S O).
  destruct (functions_partition enum E eqs S H f) as [P [Q _]].
  assert (I : In f (s_functions S)) by (apply P; split; assumption). specialize (Q I). cbn [List.app tl firstn].
  destruct Q as [[X _]|[[_ [X _]]|[_ [_ X]]]].
  - eexists. split; [left; reflexivity|]. apply infix_app_r, infix_listed, in_map, X.
  - eexists. split; [right; left; reflexivity|]. apply infix_app_r, infix_listed, in_map.
    eapply Permutation_in; [apply Permutation_sym, E|exact X].
  - eexists. split; [right; right; left; reflexivity|]. apply infix_app_r, infix_listed, in_map.
    eapply Permutation_in; [apply Permutation_sym, E|exact X].
Qed.
