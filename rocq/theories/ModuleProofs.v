(** Proofs about the text of the generated modules. *)
From Coq Require Import List Arith Bool Ascii String Lia.
From Verif Require Import PyBase PyBaseFacts StrModel TemplateText JinjaModel ModuleSpec.
Import ListNotations.
Open Scope string_scope.
Open Scope list_scope.
Open Scope py_scope.

Lemma sapp_assoc (a b c : string) : ((a ++ b) ++ c)%string = (a ++ (b ++ c))%string.
Proof. induction a as [|x a IH]; cbn; [reflexivity|rewrite IH; reflexivity]. Qed.
Lemma sapp_nil (a : string) : (a ++ "")%string = a.
Proof. induction a as [|x a IH]; cbn; [reflexivity|rewrite IH; reflexivity]. Qed.

(** ** complete lines, and the line that goes on *)
Fixpoint parts (s : string) : list string * string :=
  match s with
  | EmptyString => ([], "")
  | String c r =>
      let (l, p) := parts r in
      if Ascii.eqb c newline then ("" :: l, p)
      else match l with [] => ([], String c p) | a :: l => (String c a :: l, p) end
  end.
Lemma lines_parts s : lines s = fst (parts s) ++ [snd (parts s)].
Proof.
  induction s as [|c r IH]; [reflexivity|]. cbn [lines parts]. rewrite IH. destruct (parts r) as [l p]. unfold newline.
  destruct (Ascii.eqb c (ascii_of_nat 10)); [reflexivity|]. destruct l; reflexivity.
Qed.
Lemma parts_app a b : parts (a ++ b) =
  let (la, pa) := parts a in let (lb, pb) := parts b in
  match lb with [] => (la, (pa ++ pb)%string) | l :: lb => (la ++ (pa ++ l)%string :: lb, pb) end.
Proof.
  induction a as [|c r IH]; cbn [parts append].
  - destruct (parts b) as [[|l lb] pb]; reflexivity.
  - rewrite IH. destruct (parts r) as [l p], (parts b) as [[|m lb] pb]; destruct (Ascii.eqb c newline); destruct l; reflexivity.
Qed.
Definition nonl (s : string) : Prop := parts s = ([], s).
Lemma parts_rest s : nonl (snd (parts s)).
Proof.
  unfold nonl. induction s as [|c r IH]; [reflexivity|]. cbn [parts]. destruct (parts r) as [l p]. cbn [snd] in IH.
  destruct (Ascii.eqb c newline) eqn:E; [exact IH|]. destruct l; cbn [snd]; [|exact IH]. cbn [parts]. rewrite IH, E. reflexivity.
Qed.
Lemma nonl_app a b : nonl a -> nonl b -> nonl (a ++ b).
Proof. unfold nonl. intros A B. rewrite parts_app, A, B. reflexivity. Qed.
Lemma parts_chain x b l1 p1 l2 p2 :
  parts x = (l1, p1) -> parts (p1 ++ b) = (l2, p2) -> parts (x ++ b) = (l1 ++ l2, p2).
Proof.
  intros X. pose proof (parts_rest x) as N. rewrite X in N. cbn [snd] in N. unfold nonl in N.
  rewrite (parts_app p1), N, (parts_app x), X. destruct (parts b) as [[|l lb] pb]; intros E; inversion E; subst; rewrite ?app_nil_r; reflexivity.
Qed.

(** ** unfolding the renderer *)
Definition loop (x : string) (body : list node) (g : context) : list value -> res string :=
  fix loop l := match l with
                | [] => Ok ""
                | v :: r => a <- render_nodes ((x, v) :: g) body ;; b <- loop r ;; Ok (a ++ b)%string
                end.
Lemma render_all g l :
  (fix all (g : context) (l : list node) {struct l} :=
     match l with [] => Ok "" | n :: r => a <- render_node g n ;; b <- all g r ;; Ok (a ++ b)%string end) g l = render_nodes g l.
Proof. induction l as [|n r IH]; [reflexivity|]. cbn [render_nodes]. rewrite <- IH. reflexivity. Qed.
Lemma render_for g x p body :
  render_node g (NFor x p body) = (v <- value_of g p ;; l <- iterated v ;; loop x body g l).
Proof.
  cbn [render_node]. destruct (value_of g p) as [v|]; [|reflexivity]. cbn [bind]. destruct (iterated v) as [l|]; [|reflexivity]. cbn [bind].
  induction l as [|v' r IH]; [reflexivity|]. cbn [loop]. rewrite <- IH, render_all. reflexivity.
Qed.
Lemma render_if g p body :
  render_node g (NIf p body) = (v <- value_of g p ;; if truth v then render_nodes g body else Ok "").
Proof. cbn [render_node]. destruct (value_of g p) as [v|]; [|reflexivity]. cbn [bind]. rewrite render_all. reflexivity. Qed.
Lemma render_app g a b : render_nodes g (a ++ b) = (x <- render_nodes g a ;; y <- render_nodes g b ;; Ok (x ++ y)%string).
Proof.
  induction a as [|n r IH]; cbn [render_nodes app].
  - destruct (render_nodes g b) as [y|]; reflexivity.
  - rewrite IH. destruct (render_node g n) as [u|]; [|reflexivity]. cbn [bind].
    destruct (render_nodes g r) as [v|]; [|reflexivity]. cbn [bind]. destruct (render_nodes g b) as [w|]; [|reflexivity]. cbn [bind].
    rewrite sapp_assoc. reflexivity.
Qed.

(** ** a template line by line *)
Inductive item := ILine (l : list node) | IFor (x : string) (p : list string) (l : list node)
| IIf (p : list string) (l : list item).

Definition cut_text (pre : list node) (s : string) : list item * list node :=
  let (l, p) := parts s in
  match l with
  | [] => ([], pre ++ [NText p])
  | a :: l => (ILine (pre ++ [NText a]) :: map (fun a => ILine [NText a]) l, [NText p])
  end.
Fixpoint literal (l : list node) : option string :=
  match l with
  | [] => Some ""
  | NText s :: r => match literal r with Some t => Some (s ++ t)%string | None => None end
  | _ :: _ => None
  end.
(** a loop body on one line: the line, and the text after its line break *)
Fixpoint cut_body (pre : list node) (l : list node) : option (list node * string) :=
  match l with
  | [] => None
  | NOut p :: r => cut_body (pre ++ [NOut p]) r
  | NText s :: r =>
      match parts s with
      | ([], p) => cut_body (pre ++ [NText p]) r
      | ([a], p) => match r with [] => Some (pre ++ [NText a], p) | _ => None end
      | _ => None
      end
  | _ :: _ => None
  end.
Fixpoint cut_node (pre : list node) (n : node) : option (list item * list node) :=
  match n with
  | NText s => Some (cut_text pre s)
  | NOut p => Some ([], pre ++ [NOut p])
  | NFor x p body =>
      match literal pre, cut_body [] body with
      | Some a, Some (l, b) => if String.eqb a b then Some ([IFor x p (pre ++ l)], pre) else None
      | _, _ => None
      end
  | NIf p body =>
      match literal pre,
            (fix all pre l := match l with
                              | [] => Some ([], pre)
                              | n :: r => match cut_node pre n with
                                          | None => None
                                          | Some (i, pre) => match all pre r with
                                                             | None => None
                                                             | Some (j, pre) => Some (i ++ j, pre)
                                                             end
                                          end
                              end) pre body with
      | Some a, Some (i, post) =>
          match literal post with
          | Some b => if String.eqb a b then Some ([IIf p i], pre) else None
          | None => None
          end
      | _, _ => None
      end
  end.
Fixpoint cut_nodes (pre : list node) (l : list node) : option (list item * list node) :=
  match l with
  | [] => Some ([], pre)
  | n :: r => match cut_node pre n with
              | None => None
              | Some (i, pre) => match cut_nodes pre r with
                                 | None => None
                                 | Some (j, pre) => Some (i ++ j, pre)
                                 end
              end
  end.
Lemma cut_if pre p body : cut_node pre (NIf p body) =
  match literal pre, cut_nodes pre body with
  | Some a, Some (i, post) =>
      match literal post with
      | Some b => if String.eqb a b then Some ([IIf p i], pre) else None
      | None => None
      end
  | _, _ => None
  end.
Proof.
  cbn [cut_node]. destruct (literal pre) as [a|]; [|reflexivity].
  match goal with |- match ?x with _ => _ end = _ => assert (E : x = cut_nodes pre body) end.
  { generalize pre. induction body as [|n r IH]; intros pre0; [reflexivity|]. cbn [cut_nodes].
    destruct (cut_node pre0 n) as [[i pre1]|]; [|reflexivity]. rewrite IH. reflexivity. }
  rewrite E. reflexivity.
Qed.

Fixpoint item_lines (g : context) (i : item) : res (list string) :=
  let fix all l := match l with [] => Ok [] | i :: r => a <- item_lines g i ;; b <- all r ;; Ok (a ++ b) end in
  match i with
  | ILine l => s <- render_nodes g l ;; Ok [s]
  | IFor x p l => v <- value_of g p ;; vs <- iterated v ;; mapM (fun v => render_nodes ((x, v) :: g) l) vs
  | IIf p l => v <- value_of g p ;; if truth v then all l else Ok []
  end.
Fixpoint items_lines (g : context) (l : list item) : res (list string) :=
  match l with [] => Ok [] | i :: r => a <- item_lines g i ;; b <- items_lines g r ;; Ok (a ++ b) end.
Lemma item_if g p l : item_lines g (IIf p l) = (v <- value_of g p ;; if truth v then items_lines g l else Ok []).
Proof.
  cbn [item_lines]. destruct (value_of g p) as [v|]; [|reflexivity]. cbn [bind]. destruct (truth v); [|reflexivity].
  cbn [bind]. induction l as [|i r IH]; [reflexivity|]. cbn [items_lines]. destruct (item_lines g i) as [u|]; [|reflexivity]. cbn [bind] in *. rewrite IH. reflexivity.
Qed.
Lemma items_app g a b : items_lines g (a ++ b) = (x <- items_lines g a ;; y <- items_lines g b ;; Ok (x ++ y)).
Proof.
  induction a as [|n r IH]; cbn [items_lines app].
  - destruct (items_lines g b) as [y|]; reflexivity.
  - rewrite IH. destruct (item_lines g n) as [u|]; [|reflexivity]. cbn [bind].
    destruct (items_lines g r) as [v|]; [|reflexivity]. cbn [bind]. destruct (items_lines g b) as [w|]; [|reflexivity]. cbn [bind].
    rewrite app_assoc. reflexivity.
Qed.

(** ** values that print without line break *)
Fixpoint clean (v : value) : Prop :=
  match v with
  | VStr s => nonl s
  | VObj l => (fix all l := match l with [] => True | (_, v) :: r => clean v /\ all r end) l
  | VList l => (fix all l := match l with [] => True | v :: r => clean v /\ all r end) l
  | _ => True
  end.
Definition clean_context (g : context) : Prop := clean (VObj g).
Lemma clean_find g x : clean (VObj g) -> clean (find_value x g).
Proof.
  unfold find_value, dget. induction g as [|[y v] r IH]; [intros _; exact I|]. intros [V R]. cbn.
  destruct (string_dec x y); [exact V|exact (IH R)].
Qed.
Lemma clean_value g p v : clean (VObj g) -> value_of g p = Ok v -> clean v.
Proof.
  intros G. destruct p as [|x p]; [discriminate|]. cbn [value_of]. assert (C : clean (find_value x g)) by exact (clean_find g x G).
  revert C. generalize (find_value x g). induction p as [|a p IH]; cbn [foldM]; intros w C E; [inversion E; subst; exact C|].
  destruct (attribute w a) as [w'|] eqn:A; [|discriminate]. cbn [bind] in E. refine (IH w' _ E).
  destruct w; try discriminate; inversion A; subst. exact (clean_find attrs a C).
Qed.
Lemma str_uint_nonl u : nonl (DecimalString.NilEmpty.string_of_uint u).
Proof. unfold nonl. induction u; cbn; try rewrite IHu; reflexivity. Qed.
Lemma clean_printed v s : clean v -> printed v = Ok s -> nonl s.
Proof.
  destruct v as [t|n|b|l|l|]; cbn; intros C E; try discriminate; inversion E; subst; try reflexivity; try exact C.
  - apply str_uint_nonl.
  - destruct b; inversion E; reflexivity.
Qed.
Lemma clean_list l v : clean (VList l) -> In v l -> clean v.
Proof. induction l as [|a r IH]; [intros _ []|]. intros [A R] [<-|H]; [exact A|exact (IH R H)]. Qed.

Lemma literal_render g l s : literal l = Some s -> render_nodes g l = Ok s.
Proof.
  revert s. induction l as [|n r IH]; intros s E; [inversion E; reflexivity|]. destruct n; try discriminate. cbn [literal] in E.
  destruct (literal r) as [t|]; [|discriminate]. inversion E; subst. cbn [render_nodes render_node bind]. rewrite (IH t eq_refl). reflexivity.
Qed.

(** text nodes without line break, and outputs *)
Lemma cut_body_ok g : clean (VObj g) -> forall body pre l b ps,
  cut_body pre body = Some (l, b) -> render_nodes g pre = Ok ps -> nonl ps -> forall t, render_nodes g l = Ok t ->
  exists s, render_nodes g body = Ok s /\ parts (ps ++ s) = ([t], b).
Proof.
  intros G. induction body as [|n r IH]; intros pre l b ps C P N t T; [discriminate|]. destruct n as [s|p| |]; try discriminate.
  - cbn [cut_body] in C. destruct (parts s) as [[|a [|]] q] eqn:E; try discriminate.
    + pose proof (parts_rest s) as Nq. rewrite E in Nq. cbn [snd] in Nq.
      assert (Es : s = q).
      { clear - E Nq. revert q E Nq. induction s as [|c r IH]; intros q E N; [inversion E; reflexivity|]. cbn [parts] in E.
        destruct (parts r) as [l p]. destruct (Ascii.eqb c newline); [discriminate|]. destruct l; [|discriminate].
        inversion E; subst. f_equal. apply IH; [reflexivity|]. unfold nonl in *. cbn [parts] in N.
        destruct (parts p) as [l' p']. destruct (Ascii.eqb c newline); [discriminate|]. destruct l'; [|discriminate]. inversion N; reflexivity. }
      subst q. destruct (IH _ _ _ (ps ++ s)%string C) with (t := t) as (u & U & PU); auto.
      * rewrite render_app, P. cbn. rewrite sapp_nil. reflexivity.
      * apply nonl_app; assumption.
      * exists (s ++ u)%string. cbn [render_nodes render_node bind]. rewrite U. cbn [bind]. split; [reflexivity|].
        rewrite <- sapp_assoc. exact PU.
    + destruct r; [|discriminate]. inversion C; subst. exists (s ++ "")%string. split; [reflexivity|]. rewrite sapp_nil.
      rewrite render_app, P in T. cbn in T. rewrite sapp_nil in T. inversion T; subst. rewrite parts_app, N, E. reflexivity.
  - cbn [cut_body] in C. 
    assert (V : exists w, render_node g (NOut p) = Ok w).
    { assert (X : forall body pre l, cut_body pre body = Some (l, b) -> exists z, l = pre ++ z).
      { clear. induction body as [|n r IH]; intros pre l C; [discriminate|]. destruct n as [s|p| |]; try discriminate; cbn [cut_body] in C.
        - destruct (parts s) as [[|a [|]] q]; try discriminate.
          + destruct (IH _ _ C) as (z & ->). exists (NText q :: z). rewrite <- app_assoc. reflexivity.
          + destruct r; [|discriminate]. inversion C; subst. eauto.
        - destruct (IH _ _ C) as (z & ->). exists (NOut p :: z). rewrite <- app_assoc. reflexivity. }
      destruct (X _ _ _ C) as (z & ->). rewrite !render_app in T. rewrite P in T. cbn [bind] in T. cbn [render_nodes] in T.
      destruct (render_node g (NOut p)) as [w|]; [eauto|discriminate]. }
    destruct V as (w & W). destruct (IH _ _ _ (ps ++ w)%string C) with (t := t) as (u & U & PU); auto.
    + rewrite render_app, P. cbn [bind render_nodes]. rewrite W. cbn [bind]. rewrite sapp_nil. reflexivity.
    + apply nonl_app; [assumption|]. cbn [render_node] in W. destruct (value_of g p) as [v|] eqn:Ev; [|discriminate].
      exact (clean_printed v w (clean_value g p v G Ev) W).
    + exists (w ++ u)%string. cbn [render_nodes]. rewrite W. cbn [bind]. rewrite U. cbn [bind]. split; [reflexivity|].
      rewrite <- sapp_assoc. exact PU.
Qed.

Section NodeInd.
  Variable P : node -> Prop.
  Hypothesis HT : forall s, P (NText s).
  Hypothesis HO : forall p, P (NOut p).
  Hypothesis HF : forall x p b, Forall P b -> P (NFor x p b).
  Hypothesis HI : forall p b, Forall P b -> P (NIf p b).
  Fixpoint node_rect' (n : node) : P n :=
    let fix all l : Forall P l := match l with [] => Forall_nil P | a :: r => Forall_cons a (node_rect' a) (all r) end in
    match n with
    | NText s => HT s
    | NOut p => HO p
    | NFor x p b => HF x p b (all b)
    | NIf p b => HI p b (all b)
    end.
End NodeInd.

Definition good (n : node) : Prop := forall g pre i post ps,
  clean (VObj g) -> cut_node pre n = Some (i, post) -> render_nodes g pre = Ok ps -> nonl ps ->
  forall ls, items_lines g i = Ok ls -> forall ps', render_nodes g post = Ok ps' ->
  exists s, render_node g n = Ok s /\ parts (ps ++ s) = (ls, ps').

Lemma post_render g l : Forall good l -> clean (VObj g) -> forall pre i post ps, cut_nodes pre l = Some (i, post) ->
  render_nodes g pre = Ok ps -> nonl ps -> forall ls, items_lines g i = Ok ls -> forall ps', render_nodes g post = Ok ps' ->
  exists s, render_nodes g l = Ok s /\ parts (ps ++ s) = (ls, ps').
Proof.
  intros F G. induction F as [|n r Hn F IH]; intros pre i post ps C P N ls L ps' P'.
  - inversion C; subst. inversion L; subst. rewrite P in P'. inversion P'; subst. exists "". split; [reflexivity|]. rewrite sapp_nil. exact N.
  - cbn [cut_nodes] in C. destruct (cut_node pre n) as [[i1 pre1]|] eqn:C1; [|discriminate].
    destruct (cut_nodes pre1 r) as [[i2 pre2]|] eqn:C2; [|discriminate]. inversion C; subst. rewrite items_app in L.
    destruct (items_lines g i1) as [l1|] eqn:L1; [|discriminate]. cbn [bind] in L.
    destruct (items_lines g i2) as [l2|] eqn:L2; [|discriminate]. cbn [bind] in L. inversion L; subst.
    assert (R : exists p1, render_nodes g pre1 = Ok p1).
    { clear IH F Hn L1 C1 C. revert i2 post C2 l2 L2 ps' P' L. generalize pre1. induction r as [|m r IH]; intros q i2 post C2 l2 L2 ps' P' _.
      - inversion C2; subst. eauto.
      - cbn [cut_nodes] in C2. destruct (cut_node q m) as [[i3 q3]|] eqn:C3; [|discriminate].
        destruct (cut_nodes q3 r) as [[i4 q4]|] eqn:C4; [|discriminate]. inversion C2; subst. rewrite items_app in L2.
        destruct (items_lines g i3) as [l3|] eqn:L3; [|discriminate]. cbn [bind] in L2.
        destruct (items_lines g i4) as [l4|] eqn:L4; [|discriminate].
        destruct (IH q3 i4 post C4 l4 L4 ps' P' eq_refl) as (p3 & R3).
        destruct m as [s|p|x p b|p b].
        + cbn [cut_node] in C3. unfold cut_text in C3. destruct (parts s) as [[|a l] z]; inversion C3; subst.
          * rewrite render_app in R3. destruct (render_nodes g q) as [w|]; [eauto|discriminate].
          * cbn [items_lines item_lines] in L3. rewrite render_app in L3. destruct (render_nodes g q) as [w|]; [eauto|discriminate].
        + inversion C3; subst. rewrite render_app in R3. destruct (render_nodes g q) as [w|]; [eauto|discriminate].
        + cbn [cut_node] in C3. destruct (literal q) as [w|] eqn:Q; [|discriminate]. exists w. exact (literal_render g q w Q).
        + rewrite cut_if in C3. destruct (literal q) as [w|] eqn:Q; [|discriminate]. exists w. exact (literal_render g q w Q). }
    destruct R as (p1 & R). destruct (Hn g pre i1 pre1 ps G C1 P N l1 L1 p1 R) as (s1 & S1 & E1).
    assert (N1 : nonl p1). { pose proof (parts_rest (ps ++ s1)) as X. rewrite E1 in X. exact X. }
    destruct (IH pre1 i2 post p1 C2 R N1 l2 L2 ps' P') as (s2 & S2 & E2).
    exists (s1 ++ s2)%string. cbn [render_nodes]. rewrite S1. cbn [bind]. rewrite S2. split; [reflexivity|].
    rewrite <- sapp_assoc. exact (parts_chain _ _ _ _ _ _ E1 E2).
Qed.

Lemma all_good n : good n.
Proof.
  apply node_rect'; clear n; unfold good.
  - intros s g pre i post ps G C P N ls L ps' P'. exists s. split; [reflexivity|]. inversion C as [C1]. unfold cut_text in C1.
    destruct (parts s) as [[|a l] p] eqn:E; inversion C1; subst.
    + inversion L; subst. rewrite render_app, P in P'. cbn in P'. rewrite sapp_nil in P'. inversion P'; subst.
      rewrite parts_app, N, E. reflexivity.
    + cbn in P'. rewrite sapp_nil in P'. inversion P'; subst. cbn [items_lines item_lines] in L. rewrite render_app, P in L.
      cbn in L. rewrite sapp_nil in L. assert (M : items_lines g (map (fun a => ILine [NText a]) l) = Ok l).
      { clear. induction l as [|a l IH]; [reflexivity|]. cbn. rewrite IH, sapp_nil. reflexivity. }
      rewrite M in L. inversion L; subst. rewrite parts_app, N, E. reflexivity.
  - intros p g pre i post ps G C P N ls L ps' P'. inversion C; subst. inversion L; subst. rewrite render_app, P in P'.
    cbn [bind render_nodes] in P'. destruct (render_node g (NOut p)) as [w|] eqn:W; [|discriminate]. cbn in P'. rewrite sapp_nil in P'.
    inversion P'; subst. exists w. split; [reflexivity|]. cbn [render_node] in W. destruct (value_of g p) as [v|] eqn:Ev; [|discriminate].
    apply nonl_app; [assumption|]. exact (clean_printed v w (clean_value g p v G Ev) W).
  - intros x p body _ g pre i post ps G C P N ls L ps' P'. cbn [cut_node] in C. destruct (literal pre) as [a|] eqn:Lp; [|discriminate].
    destruct (cut_body [] body) as [[l b]|] eqn:B; [|discriminate]. destruct (String.eqb a b) eqn:Eab; [|discriminate].
    apply String.eqb_eq in Eab. subst b. inversion C; subst. rewrite P in P'. inversion P'; subst.
    assert (Ea : a = ps'). { pose proof (literal_render g post a Lp) as X. rewrite P in X. inversion X; reflexivity. } subst a.
    rewrite render_for. cbn [items_lines item_lines] in L. destruct (value_of g p) as [v|] eqn:Ev; [|discriminate]. cbn [bind] in L |- *.
    pose proof (clean_value g p v G Ev) as Cv. destruct (iterated v) as [vs|] eqn:Ei; [|discriminate]. cbn [bind] in L |- *.
    assert (Cvs : clean (VList vs)). { destruct v; try discriminate; inversion Ei; subst; [exact Cv|exact I]. }
    clear Ev Ei Cv. 
    destruct (mapM (fun v => render_nodes ((x, v) :: g) (post ++ l)) vs) as [ms|] eqn:M; [|discriminate]. cbn [bind] in L. inversion L; subst. rewrite app_nil_r.
    clear L C P'. revert ms M. induction vs as [|w vs IH]; intros ms M.
    + inversion M; subst. exists "". split; [reflexivity|]. rewrite sapp_nil. exact N.
    + destruct Cvs as [Cw Cvs]. cbn [mapM] in M. destruct (render_nodes ((x, w) :: g) (post ++ l)) as [m|] eqn:Em; [|discriminate]. cbn [bind] in M.
      destruct (mapM (fun v => render_nodes ((x, v) :: g) (post ++ l)) vs) as [ms'|] eqn:M'; [|discriminate]. cbn [bind] in M. inversion M; subst.
      destruct (IH Cvs ms' eq_refl) as (s2 & S2 & E2). cbn [loop]. rewrite render_app, (literal_render _ _ _ Lp) in Em. cbn [bind] in Em.
      destruct (render_nodes ((x, w) :: g) l) as [t|] eqn:Et; [|discriminate]. cbn [bind] in Em. inversion Em; subst.
      destruct (cut_body_ok ((x, w) :: g)) with (body := body) (pre := @nil node) (l := l) (b := ps') (ps := "") (t := t) as (s1 & S1 & E1); auto.
      { split; [exact Cw|exact G]. } { reflexivity. }
      cbn [append] in E1. change ((fix loop l0 := match l0 with [] => Ok "" | v0 :: r => a <- render_nodes ((x, v0) :: g) body ;; b <- loop r ;; Ok (a ++ b)%string end) vs) with (loop x body g vs).
      rewrite S1. cbn [bind]. rewrite S2. cbn [bind]. exists (s1 ++ s2)%string. split; [reflexivity|].
      rewrite <- sapp_assoc. change (((ps' ++ t)%string) :: ms') with ([(ps' ++ t)%string] ++ ms').
      apply (parts_chain _ _ _ ps'); [|exact E2]. rewrite parts_app, N, E1. reflexivity.
  - intros p body F g pre i post ps G C P N ls L ps' P'. rewrite cut_if in C. destruct (literal pre) as [a|] eqn:Lp; [|discriminate].
    destruct (cut_nodes pre body) as [[j q]|] eqn:B; [|discriminate]. destruct (literal q) as [b|] eqn:Lq; [|discriminate].
    destruct (String.eqb a b) eqn:Eab; [|discriminate]. apply String.eqb_eq in Eab. subst b. inversion C; subst.
    rewrite P in P'. inversion P'; subst.
    assert (Ea : a = ps'). { pose proof (literal_render g post a Lp) as X. rewrite P in X. inversion X; reflexivity. } subst a.
    rewrite render_if. cbn [items_lines] in L. rewrite item_if in L. destruct (value_of g p) as [v|] eqn:Ev; [|discriminate]. cbn [bind] in L |- *.
    destruct (truth v).
    + destruct (items_lines g j) as [lj|] eqn:Lj; [|discriminate]. cbn [bind] in L. inversion L; subst. rewrite app_nil_r.
      exact (post_render g body F G post j q ps' B P N lj Lj ps' (literal_render g q ps' Lq)).
    + inversion L; subst. exists "". split; [reflexivity|]. rewrite sapp_nil. exact N.
Qed.

Lemma cut_ok g l i post ls ps' : clean (VObj g) -> cut_nodes [] l = Some (i, post) -> items_lines g i = Ok ls ->
  render_nodes g post = Ok ps' -> exists s, render_nodes g l = Ok s /\ lines s = ls ++ [ps'].
Proof.
  intros G C L P'. destruct (post_render g l) with (pre := @nil node) (i := i) (post := post) (ps := "") (ls := ls) (ps' := ps') as (s & S & E); auto.
  - apply Forall_forall. intros n _. apply all_good.
  - reflexivity.
  - exists s. split; [exact S|]. cbn [append] in E. rewrite lines_parts, E. reflexivity.
Qed.

(** ** dropping what is not executed *)
Definition sts (l : list string) : list string := filter (fun s => negb (String.eqb s "")) (map kept l).
Lemma sts_app a b : sts (a ++ b) = sts a ++ sts b.
Proof. unfold sts. rewrite map_app, filter_app. reflexivity. Qed.
Fixpoint simp (i : item) : list item :=
  match i with
  | ILine l => match literal l with
               | Some s => let k := kept s in
                           if String.eqb k "" then [] else if String.eqb (kept k) k then [ILine [NText k]] else [i]
               | None => [i]
               end
  | IIf p l => [IIf p ((fix all l := match l with [] => [] | i :: r => simp i ++ all r end) l)]
  | _ => [i]
  end.
Fixpoint simps (l : list item) : list item := match l with [] => [] | i :: r => simp i ++ simps r end.
Section ItemInd.
  Variable P : item -> Prop.
  Hypothesis HL : forall l, P (ILine l).
  Hypothesis HF : forall x p b, P (IFor x p b).
  Hypothesis HI : forall p b, Forall P b -> P (IIf p b).
  Fixpoint item_rect' (n : item) : P n :=
    let fix all l : Forall P l := match l with [] => Forall_nil P | a :: r => Forall_cons a (item_rect' a) (all r) end in
    match n with ILine l => HL l | IFor x p b => HF x p b | IIf p b => HI p b (all b) end.
End ItemInd.
(** what [simp] drops is known to render *)
Definition simple (g : context) (i : item) : Prop := forall ls, items_lines g (simp i) = Ok ls ->
  exists ls', item_lines g i = Ok ls' /\ sts ls' = sts ls.
Lemma simps_ok g l : Forall (simple g) l -> forall ls, items_lines g (simps l) = Ok ls ->
  exists ls', items_lines g l = Ok ls' /\ sts ls' = sts ls.
Proof.
  induction 1 as [|i r Hi F IH]; intros ls L; cbn [simps] in L; [inversion L; subst; exists []; split; reflexivity|].
  rewrite items_app in L. destruct (items_lines g (simp i)) as [a|] eqn:A; [|discriminate]. cbn [bind] in L.
  destruct (items_lines g (simps r)) as [b|] eqn:B; [|discriminate]. cbn [bind] in L. inversion L; subst.
  destruct (Hi a A) as (a' & A' & Sa), (IH b eq_refl) as (b' & B' & Sb). exists (a' ++ b'). cbn [items_lines]. rewrite A'. cbn [bind]. rewrite B'.
  split; [reflexivity|]. rewrite !sts_app, Sa, Sb. reflexivity.
Qed.
Lemma simple_all g i : simple g i.
Proof.
  apply item_rect'; clear i; unfold simple.
  - intros l ls L. cbn [simp] in L. destruct (literal l) as [s|] eqn:E.
    + cbn [item_lines]. rewrite (literal_render g l s E). cbn [bind]. exists [s]. split; [reflexivity|]. cbv zeta in L.
      destruct (String.eqb (kept s) "") eqn:K.
      * inversion L; subst. unfold sts. cbn [map filter]. rewrite K. reflexivity.
      * destruct (String.eqb (kept (kept s)) (kept s)) eqn:KK.
        -- cbn [items_lines item_lines render_nodes render_node bind] in L. rewrite sapp_nil in L. inversion L; subst.
           apply String.eqb_eq in KK. unfold sts. cbn [map app filter]. rewrite KK. reflexivity.
        -- cbn [items_lines item_lines] in L. rewrite (literal_render g l s E) in L. cbn in L. inversion L; subst. reflexivity.
    + cbn [items_lines] in L. destruct (item_lines g (ILine l)) as [a|]; [|discriminate]. cbn [bind] in L. inversion L; subst.
      rewrite app_nil_r. eauto.
  - intros x p b ls L. cbn [simp items_lines] in L. destruct (item_lines g (IFor x p b)) as [a|]; [|discriminate]. cbn [bind] in L.
    inversion L; subst. rewrite app_nil_r. eauto.
  - intros p b F ls L. cbn [simp] in L.
    assert (X : (fix all l := match l with [] => [] | i :: r => simp i ++ all r end) b = simps b) by (clear; induction b as [|i r IH]; [reflexivity|]; cbn; rewrite IH; reflexivity).
    rewrite X in L. cbn [items_lines] in L. rewrite item_if in L |- *. destruct (value_of g p) as [v|]; [|discriminate]. cbn [bind] in L |- *.
    destruct (truth v).
    + destruct (items_lines g (simps b)) as [a|] eqn:A; [|discriminate]. cbn [bind] in L. inversion L; subst. rewrite app_nil_r.
      exact (simps_ok g b F a A).
    + inversion L; subst. eauto.
Qed.

(** the statements of a rendered template *)
Lemma rendered g l i post ls p : clean (VObj g) -> cut_nodes [] l = Some (i, post) -> literal post = Some p -> kept p = "" ->
  items_lines g (simps i) = Ok ls -> exists s, render_nodes g l = Ok s /\ statements s = sts ls.
Proof.
  intros G C P K L. destruct (simps_ok g i) with (ls := ls) as (ls' & L' & S); [apply Forall_forall; intros; apply simple_all|exact L|].
  destruct (cut_ok g l i post ls' p G C L' (literal_render g post p P)) as (s & R & E). exists s. split; [exact R|].
  unfold statements. rewrite E. change (sts (ls' ++ [p]) = sts ls). rewrite sts_app, S. unfold sts at 2. cbn [map filter]. rewrite K. cbn. apply app_nil_r.
Qed.
