(** Proofs about histories of a ModelBuilder object. *)
From Coq Require Import List Arith Bool String.
From Verif Require Import PyBase PyBaseFacts SymModel PDEModel StrModel CodegenModel JinjaModel TemplateText BuilderModel BuilderObjModel BuilderObjSpec.
Import ListNotations.
Open Scope string_scope.
Open Scope list_scope.
Open Scope py_scope.

Local Opaque code.

Definition part_dec (p q : part) : {p = q} + {p <> q}. Proof. decide equality. Defined.
Lemma rd_in h : {In ReadDerivatives h} + {~ In ReadDerivatives h}.
Proof.
  induction h as [|a h IH]; [right; intros []|]. destruct IH as [Y|Y]; [left; right; exact Y|].
  destruct a; try (right; intros [Z|Z]; [discriminate|exact (Y Z)]). left; left; reflexivity.
Qed.
Section Proofs.
  Variables (enum : list sx -> list sx) (print : sx -> string) (as_code : sx -> string -> list (string * nat) -> string) (body : string).
  Local Notation read_derivatives := (read_derivatives enum as_code).
  Local Notation read_pseudo := (read_pseudo enum as_code).
  Local Notation read_trend := (read_trend enum print as_code).
  Local Notation read_code := (read_code enum print as_code body).
  Local Notation act := (act enum print as_code body).
  Local Notation history := (history enum print as_code body).

  (** the attributes that the reads never change *)
  Definition same_user (o o' : obj) : Prop := o_sys o' = o_sys o /\ o_eqs o' = o_eqs o /\ o_class o' = o_class o /\ view o' = view o.
  Lemma su_refl o : same_user o o. Proof. repeat split. Qed.
  Lemma su_trans a b c : same_user a b -> same_user b c -> same_user a c.
  Proof. intros (A1 & A2 & A3 & A4) (B1 & B2 & B3 & B4). repeat split; congruence. Qed.
  (** a cache once filled is kept *)
  Definition keeps (o o' : obj) : Prop :=
    (forall p l, cached p o = Some l -> cached p o' = Some l) /\ (forall l, c_derivatives o = Some l -> c_derivatives o' = Some l) /\
    (forall l, c_pseudo o = Some l -> c_pseudo o' = Some l) /\ (forall l, c_trend o = Some l -> c_trend o' = Some l) /\
    (forall l, c_code o = Some l -> c_code o' = Some l).
  Lemma keeps_refl o : keeps o o. Proof. repeat split; auto. Qed.
  Lemma keeps_trans a b c : keeps a b -> keeps b c -> keeps a c.
  Proof. intros (A1 & A2 & A3 & A4 & A5) (B1 & B2 & B3 & B4 & B5). repeat split; auto. Qed.

  Lemma touch_su p o : same_user o (touch p o).
  Proof. destruct o, p; unfold touch; cbn; match goal with |- context [match ?c with _ => _ end] => destruct c end; repeat split. Qed.
  Lemma touch_keeps p o : keeps o (touch p o).
  Proof.
    unfold touch. destruct (cached p o) eqn:E; [apply keeps_refl|].
    destruct o. repeat split; auto. intros p' l H. destruct p, p'; cbn in *; congruence.
  Qed.
  Lemma touch_cached p o : cached p (touch p o) <> None.
  Proof. unfold touch. destruct (cached p o) eqn:E; [congruence|]. destruct p; discriminate. Qed.
  Lemma touch_rest p o : c_derivatives (touch p o) = c_derivatives o /\ c_pseudo (touch p o) = c_pseudo o /\
    c_trend (touch p o) = c_trend o /\ c_code (touch p o) = c_code o.
  Proof. unfold touch. destruct (cached p o); destruct o; auto. Qed.

  Lemma derivatives_case o : let (r, o') := read_derivatives o in
    same_user o o' /\ keeps o o' /\ c_pseudo o' = c_pseudo o /\ c_trend o' = c_trend o /\ c_code o' = c_code o /\
    match r with
    | Ok _ => c_derivatives o' <> None /\
              (c_derivatives o = None -> exists ds, mapM (meta_of_derivative as_code) (enum (s_derivatives (o_sys o))) = Ok ds)
    | Err e => o' = o /\ c_derivatives o = None /\ mapM (meta_of_derivative as_code) (enum (s_derivatives (o_sys o))) = Err e
    end.
  Proof.
    unfold BuilderObjModel.read_derivatives. destruct (c_derivatives o) eqn:E.
    - split; [apply su_refl|]. split; [apply keeps_refl|]. repeat split; intros; congruence.
    - destruct (mapM _ _) eqn:M.
      + split; [destruct o; cbn in *; subst; repeat split|]. split; [destruct o; cbn in *; subst; repeat split; auto; try discriminate; intros p l H; destruct p; exact H|].
        split; [reflexivity|]. split; [reflexivity|]. split; [reflexivity|]. split; [discriminate|]. intros _. eauto.
      + split; [apply su_refl|]. split; [apply keeps_refl|]. repeat split; reflexivity.
  Qed.
  Lemma evolution_false q r S : evolution q = false -> exists e, pseudo_system enum S (q :: r) = Err e.
  Proof.
    unfold evolution, pseudo_system. cbn. unfold pseudo_equation. destruct (get_trend q); [|eexists; reflexivity].
    destruct (sx_eq_dec _ _); [discriminate|]. eexists; reflexivity.
  Qed.
  Local Opaque pseudo_system meta_of_derivative.
  Lemma put_texts_su p t c o : same_user o (put_texts p t c o).
  Proof. repeat split. Qed.

  Lemma keeps_texts p t c o o' : keeps o o' -> (forall l, c_pseudo o' = Some l -> p = Some l) -> (forall l, c_trend o' = Some l -> t = Some l) ->
    (forall l, c_code o' = Some l -> c = Some l) -> keeps o (put_texts p t c o').
  Proof.
    intros (k1 & k2 & k3 & k4 & k5) A B C. split; [|split; [exact k2|split; [|split]]]; cbn; auto.
  Qed.
  Lemma pseudo_case o : let (r, o') := read_pseudo o in
    same_user o o' /\ keeps o o' /\ c_trend o' = c_trend o /\ c_code o' = c_code o /\
    (c_derivatives o = None -> c_derivatives o' = None \/ exists ds, mapM (meta_of_derivative as_code) (enum (s_derivatives (o_sys o))) = Ok ds) /\
    match r with
    | Ok ps => c_pseudo o' = Some ps /\ (c_pseudo o = None -> pseudo_system enum (view o) (o_eqs o) = Ok ps)
    | Err e => c_pseudo o = None /\ c_pseudo o' = None /\
               ((exists e', pseudo_system enum (view o) (o_eqs o) = Err e') \/
                c_derivatives o = None /\ exists e', mapM (meta_of_derivative as_code) (enum (s_derivatives (o_sys o))) = Err e')
    end.
  Proof.
    unfold BuilderObjModel.read_pseudo. destruct (c_pseudo o) eqn:E.
    { split; [apply su_refl|]. split; [apply keeps_refl|]. repeat split; auto. congruence. }
    destruct (o_eqs o) as [|q r] eqn:L.
    { split; [repeat split|]. split; [destruct o; cbn in *; subst; repeat split; auto; try discriminate; intros p l H; destruct p; exact H|].
      repeat split; auto. }
    destruct (evolution q) eqn:V.
    2:{ split; [apply su_refl|]. split; [apply keeps_refl|]. repeat split; auto. left. eapply evolution_false; eauto. }
    assert (D : let (r0, o1) := if Nat.eqb (s_max_order (o_sys o)) 0 then (Ok tt, o) else read_derivatives o in
      same_user o o1 /\ keeps o o1 /\ c_pseudo o1 = c_pseudo o /\ c_trend o1 = c_trend o /\ c_code o1 = c_code o /\
      (c_derivatives o = None -> c_derivatives o1 = None \/ exists ds, mapM (meta_of_derivative as_code) (enum (s_derivatives (o_sys o))) = Ok ds) /\
      match r0 with Ok _ => True | Err e => c_derivatives o = None /\ mapM (meta_of_derivative as_code) (enum (s_derivatives (o_sys o))) = Err e end).
    { destruct (Nat.eqb _ _).
      - split; [apply su_refl|]. split; [apply keeps_refl|]. repeat split; auto.
      - pose proof (derivatives_case o) as K. destruct (read_derivatives o) as [r0 o1].
        destruct K as (K1 & K2 & K3 & K4 & K5 & K6). repeat (split; [assumption|]). destruct r0.
        + split; [|exact I]. intros N. right. apply K6. exact N.
        + destruct K6 as (-> & N & M). split; [auto|]. split; assumption. }
    destruct (if Nat.eqb (s_max_order (o_sys o)) 0 then (Ok tt, o) else read_derivatives o) as [r0 o1].
    destruct D as (D1 & D2 & D3 & D4 & D5 & D6 & D7). destruct r0.
    - set (o2 := touch PConstants (touch PFunctions o1)).
      assert (S2 : same_user o o2) by (eapply su_trans; [exact D1|]; eapply su_trans; apply touch_su).
      assert (K2 : keeps o o2) by (eapply keeps_trans; [exact D2|]; eapply keeps_trans; apply touch_keeps).
      assert (T2 : c_derivatives o2 = c_derivatives o1 /\ c_pseudo o2 = c_pseudo o1 /\ c_trend o2 = c_trend o1 /\ c_code o2 = c_code o1).
      { unfold o2. destruct (touch_rest PConstants (touch PFunctions o1)) as (m1 & m2 & m3 & m4), (touch_rest PFunctions o1) as (m1' & m2' & m3' & m4').
        repeat split; congruence. }
      clearbody o2. destruct T2 as (T1 & T2 & T3 & T4). pose proof S2 as (U1 & U2 & U3 & U4). rewrite U2, U4, L.
      destruct (pseudo_system enum (view o) (q :: r)) eqn:P.
      + split; [eapply su_trans; [exact S2|apply put_texts_su]|].
        split; [apply keeps_texts; [assumption|intros; congruence|intros; congruence|intros; congruence]|].
        cbn. repeat split; try congruence. intros N. rewrite T1. auto.
      + split; [exact S2|]. split; [exact K2|]. split; [congruence|]. split; [congruence|]. split; [intros N; rewrite T1; auto|].
        split; [auto|]. split; [congruence|]. left. eauto.
    - destruct D7 as (N & M). repeat (split; [first [assumption|congruence]|]).
      right. split; [exact N|]. eauto.
  Qed.

  Lemma trend_case o : let (r, o') := read_trend o in
    same_user o o' /\ keeps o o' /\ c_code o' = c_code o /\
    (c_derivatives o = None -> c_derivatives o' = None \/ exists ds, mapM (meta_of_derivative as_code) (enum (s_derivatives (o_sys o))) = Ok ds) /\
    match r with
    | Ok t => c_trend o' = Some t /\ (c_trend o <> None -> o' = o) /\
              (c_trend o = None -> exists ps, c_pseudo o' = Some ps /\ mapM (trend_text (view o) print) ps = Ok t /\
                                              (c_pseudo o = None -> pseudo_system enum (view o) (o_eqs o) = Ok ps))
    | Err e => c_trend o = None /\ c_trend o' = None /\ c_prognostic o' <> None /\
               ((c_pseudo o = None /\ c_pseudo o' = None /\
                 ((exists e', pseudo_system enum (view o) (o_eqs o) = Err e') \/
                  c_derivatives o = None /\ exists e', mapM (meta_of_derivative as_code) (enum (s_derivatives (o_sys o))) = Err e')) \/
                exists ps, c_pseudo o' = Some ps /\ mapM (trend_text (view o) print) ps = Err e /\
                           (c_pseudo o = None -> pseudo_system enum (view o) (o_eqs o) = Ok ps))
    end.
  Proof.
    unfold BuilderObjModel.read_trend. destruct (c_trend o) eqn:E.
    { split; [apply su_refl|]. split; [apply keeps_refl|]. repeat split; auto; discriminate. }
    pose proof (pseudo_case (touch PPrognostic o)) as K. destruct (touch_rest PPrognostic o) as (R1 & R2 & R3 & R4).
    pose proof (touch_su PPrognostic o) as TS. pose proof (touch_keeps PPrognostic o) as TK. pose proof (touch_cached PPrognostic o) as TC.
    destruct (read_pseudo (touch PPrognostic o)) as [r o1].
    destruct K as (K1 & K2 & K3 & K4 & K5 & K6). rewrite R1, R2 in *. pose proof TS as (t1 & t2 & t3 & t4). rewrite t1, t2, t4 in *.
    assert (SU : same_user o o1) by (eapply su_trans; eassumption). pose proof SU as (u1 & u2 & u3 & u4).
    assert (KE : keeps o o1) by (eapply keeps_trans; eassumption).
    assert (PR : c_prognostic o1 <> None).
    { destruct (cached PPrognostic (touch PPrognostic o)) eqn:X; [|congruence]. destruct K2 as (k & _). apply (k PPrognostic) in X. cbn in X. congruence. }
    destruct r as [ps|e].
    - rewrite u4. destruct (mapM (trend_text (view o) print) ps) eqn:M.
      + split; [eapply su_trans; [exact SU|apply put_texts_su]|].
        split; [apply keeps_texts; [assumption|intros; congruence|intros; congruence|intros; congruence]|].
        cbn. split; [congruence|]. split; [exact K5|]. split; [reflexivity|]. split; [congruence|]. intros _. exists ps. destruct K6. auto.
      + split; [exact SU|]. split; [exact KE|]. split; [congruence|]. split; [exact K5|]. split; [reflexivity|]. split; [congruence|].
        split; [exact PR|]. right. exists ps. destruct K6. auto.
    - split; [exact SU|]. split; [exact KE|]. split; [congruence|]. split; [exact K5|]. split; [reflexivity|]. split; [congruence|].
      split; [exact PR|]. left. exact K6.
  Qed.

  Definition touched (o : obj) : obj := touch PConstant (touch PConstants (touch PCoordinates (touch PExogenous (touch PPrognostic o)))).
  Lemma touched_facts o : same_user o (touched o) /\ keeps o (touched o) /\
    (c_derivatives (touched o) = c_derivatives o /\ c_pseudo (touched o) = c_pseudo o /\ c_trend (touched o) = c_trend o /\ c_code (touched o) = c_code o).
  Proof.
    unfold touched. split; [repeat (eapply su_trans; [|apply touch_su]); apply su_refl|].
    split; [repeat (eapply keeps_trans; [|apply touch_keeps]); apply keeps_refl|].
    assert (G : forall p x, c_derivatives x = c_derivatives o /\ c_pseudo x = c_pseudo o /\ c_trend x = c_trend o /\ c_code x = c_code o ->
      c_derivatives (touch p x) = c_derivatives o /\ c_pseudo (touch p x) = c_pseudo o /\ c_trend (touch p x) = c_trend o /\ c_code (touch p x) = c_code o).
    { intros p x (a & b & c & d). destruct (touch_rest p x) as (a' & b' & c' & d'). repeat split; congruence. }
    do 5 apply G. auto.
  Qed.

  Definition given (S : pdes) (n : string) (ds : list (string * string)) (t : list string) : builder :=
    {| b_class := n; b_prognostic := map (fun f => (function_keyvar f, function_trend f)) (s_prognostic S);
       b_exogenous := map function_keyvar (enum (s_exogenous S)); b_coordinates := map constant_keyvar (enum (s_spatial S));
       b_constants := map constant_keyvar (enum (s_constants S)); b_constant_functions := map function_keyvar (enum (s_constant S));
       b_derivatives := ds; b_trend := t |}.

  Lemma code_case o : let (r, o') := read_code o in
    same_user o o' /\ keeps o o' /\
    (c_derivatives o = None -> c_derivatives o' = None \/ exists ds, mapM (meta_of_derivative as_code) (enum (s_derivatives (o_sys o))) = Ok ds) /\
    (* the trend after the read *)
    (forall t, c_trend o = None -> c_trend o' = Some t -> exists ps, c_pseudo o' = Some ps /\ mapM (trend_text (view o) print) ps = Ok t) /\
    (forall ps, c_pseudo o = None -> c_pseudo o' = Some ps -> pseudo_system enum (view o) (o_eqs o) = Ok ps) /\
    match r with
    | Ok s => c_code o' = Some s /\
        (c_code o = None -> c_derivatives o' <> None /\ exists t ds, c_trend o' = Some t /\
           mapM (meta_of_derivative as_code) (enum (s_derivatives (view o))) = Ok ds /\ code body (given (view o) (o_class o) ds t) = Ok s)
    | Err e => c_code o = None /\ c_code o' = None /\
        ((c_derivatives o = None /\ exists e', mapM (meta_of_derivative as_code) (enum (s_derivatives (o_sys o))) = Err e') \/
         (c_derivatives o' <> None /\
         ((c_pseudo o = None /\ c_pseudo o' = None /\ c_trend o = None /\ c_trend o' = None /\ exists e', pseudo_system enum (view o) (o_eqs o) = Err e') \/
         (exists ps, c_pseudo o' = Some ps /\ c_trend o = None /\ c_trend o' = None /\ c_prognostic o' <> None /\
                     mapM (trend_text (view o) print) ps = Err e) \/
         (exists t, c_trend o' = Some t /\
            (ds <- mapM (meta_of_derivative as_code) (enum (s_derivatives (view o))) ;; code body (given (view o) (o_class o) ds t)) = Err e))))
    end.
  Proof.
    unfold BuilderObjModel.read_code. destruct (c_code o) eqn:E.
    { split; [apply su_refl|]. split; [apply keeps_refl|]. split; [auto|]. repeat split; intros; congruence. }
    fold (touched o). destruct (touched_facts o) as (T1 & T2 & T3 & T4 & T5 & T6).
    pose proof (derivatives_case (touched o)) as D. destruct (read_derivatives (touched o)) as [rd o1].
    destruct D as (D1 & D2 & D3 & D4 & D5 & D6). pose proof T1 as (a1 & a2 & a3 & a4). pose proof D1 as (b1 & b2 & b3 & b4).
    rewrite T3, a1 in *.
    assert (S1 : same_user o o1) by (eapply su_trans; eassumption).
    assert (K1 : keeps o o1) by (eapply keeps_trans; eassumption).
    destruct rd as [u|e].
    2:{ destruct D6 as (-> & N & M). split; [exact S1|]. split; [exact K1|]. split; [intros _; left; congruence|].
        split; [intros; congruence|]. split; [intros; congruence|]. split; [auto|]. split; [congruence|]. left. split; eauto. }
    destruct D6 as (D6 & D7). pose proof (trend_case o1) as Q. destruct (read_trend o1) as [rt o2].
    destruct Q as (Q1 & Q2 & Q3 & Q4 & Q5). pose proof Q1 as (q1 & q2 & q3 & q4).
    assert (S2 : same_user o o2) by (eapply su_trans; eassumption). pose proof S2 as (s1 & s2 & s3 & s4).
    assert (K2 : keeps o o2) by (eapply keeps_trans; eassumption).
    assert (N2 : c_derivatives o2 <> None).
    { destruct (c_derivatives o1) eqn:X; [|congruence]. destruct Q2 as (_ & k & _). rewrite (k _ X). discriminate. }
    assert (F : forall t, c_trend o = None -> c_trend o2 = Some t -> exists ps, c_pseudo o2 = Some ps /\ mapM (trend_text (view o) print) ps = Ok t).
    { intros t N H. destruct rt as [t'|e].
      - destruct Q5 as (Q5 & _ & Q6). destruct Q6 as (ps & A & B & _); [congruence|]. exists ps. split; [exact A|].
        rewrite Q5 in H. injection H as <-. rewrite <- B. f_equal. f_equal. congruence.
      - destruct Q5 as (_ & Q5 & _). congruence. }
    assert (G : forall ps, c_pseudo o = None -> c_pseudo o2 = Some ps -> pseudo_system enum (view o) (o_eqs o) = Ok ps).
    { intros ps N H. replace (view o) with (view o1) by congruence. replace (o_eqs o) with (o_eqs o1) by congruence.
      destruct rt as [t'|e].
      - destruct Q5 as (Q5 & Q7 & Q6). destruct (c_trend o1) eqn:X.
        + rewrite Q7 in H by discriminate. congruence.
        + destruct Q6 as (ps' & A & B & C); [reflexivity|]. rewrite A in H. injection H as <-. apply C. congruence.
      - destruct Q5 as (_ & _ & _ & [(_ & Q5 & _)|(ps' & A & B & C)]); [congruence|]. rewrite A in H. injection H as <-. apply C. congruence. }
    assert (DD : c_derivatives o = None -> exists ds, mapM (meta_of_derivative as_code) (enum (s_derivatives (o_sys o))) = Ok ds).
    { intros N. apply D7. congruence. }
    destruct rt as [t|e].
    - rewrite s3, s4. fold (given (view o) (o_class o)).
      destruct (mapM (meta_of_derivative as_code) (enum (s_derivatives (view o)))) as [ds|e] eqn:M; cbn [bind].
      + fold (given (view o) (o_class o) ds t). destruct (code body (given (view o) (o_class o) ds t)) as [s|e] eqn:C.
        * split; [eapply su_trans; [exact S2|apply put_texts_su]|].
          split; [apply keeps_texts; [assumption|intros; congruence|intros; congruence|intros; congruence]|].
          split; [auto|]. split; [exact F|]. split; [exact G|]. split; [reflexivity|]. intros _. split; [exact N2|].
          exists t, ds. destruct Q5 as (Q5 & _). auto.
        * split; [exact S2|]. split; [exact K2|]. split; [auto|]. split; [exact F|]. split; [exact G|]. split; [reflexivity|]. split; [congruence|].
          right. split; [exact N2|]. right. right. exists t. destruct Q5 as (Q5 & _). auto.
      + split; [exact S2|]. split; [exact K2|]. split; [auto|]. split; [exact F|]. split; [exact G|]. split; [reflexivity|]. split; [congruence|].
        right. split; [exact N2|]. right. right. exists t. destruct Q5 as (Q5 & _). auto.
    - split; [exact S2|]. split; [exact K2|]. split; [auto|]. split; [exact F|]. split; [exact G|]. split; [reflexivity|]. split; [congruence|].
      right. split; [exact N2|]. destruct Q5 as (t1 & t2 & t3 & [(t4 & t5 & t6)|(ps & t4 & t5 & t6)]).
      + left. repeat split; try congruence. destruct t6 as [(e' & X)|(X & _)]; [|congruence]. exists e'. rewrite <- X. f_equal; congruence.
      + right. left. exists ps. repeat split; try congruence.
  Qed.

  (** every action keeps what is cached *)
  Lemma act_keeps o a : keeps o (act o a).
  Proof.
    destruct a; cbn [BuilderObjModel.act].
    - apply touch_keeps.
    - pose proof (derivatives_case o) as K. destruct (read_derivatives o). apply K.
    - pose proof (pseudo_case o) as K. destruct (read_pseudo o). apply K.
    - pose proof (trend_case o) as K. destruct (read_trend o). apply K.
    - pose proof (code_case o) as K. destruct (read_code o). apply K.
    - repeat split; auto.
    - repeat split; auto.
    - repeat split; auto.
  Qed.
  Lemma history_keeps h : forall o, keeps o (history h o).
  Proof. induction h as [|a h IH]; intros o; [apply keeps_refl|]. eapply keeps_trans; [apply act_keeps|apply IH]. Qed.

  (** the code read once is what all further reads give *)
  Lemma frozen o s h : fst (read_code o) = Ok s -> fst (read_code (history h (snd (read_code o)))) = Ok s.
  Proof.
    intros H. pose proof (code_case o) as K. destruct (read_code o) as [r o']. cbn in *. subst r.
    destruct K as (_ & _ & _ & _ & _ & C & _). destruct (history_keeps h o') as (_ & _ & _ & _ & k). apply k in C.
    unfold BuilderObjModel.read_code. rewrite C. reflexivity.
  Qed.

  (** the objects whose caches come from the system [S] and the equations [l] *)
  Definition inv (S : pdes) (l : list equation) (n : string) (o : obj) : Prop :=
    view o = S /\
    (c_derivatives o <> None -> exists ds, mapM (meta_of_derivative as_code) (enum (s_derivatives S)) = Ok ds) /\
    (match c_pseudo o with None => o_eqs o = l | Some ps => pseudo_system enum S l = Ok ps end) /\
    (forall t, c_trend o = Some t -> exists ps, c_pseudo o = Some ps /\ mapM (trend_text S print) ps = Ok t) /\
    (match c_code o with None => o_class o = n
     | Some s => exists b, builder_of enum S l n print as_code = Ok b /\ code body b = Ok s end).

  Lemma builder_given S l n ps t ds : pseudo_system enum S l = Ok ps -> mapM (trend_text S print) ps = Ok t ->
    mapM (meta_of_derivative as_code) (enum (s_derivatives S)) = Ok ds -> builder_of enum S l n print as_code = Ok (given S n ds t).
  Proof. intros A B C. unfold builder_of. rewrite A. cbn. rewrite B. cbn. rewrite C. reflexivity. Qed.

  Lemma der_of o S : view o = S -> c_derivatives o = None -> s_derivatives (o_sys o) = s_derivatives S.
  Proof. intros <- N. destruct o; cbn in *. rewrite N. reflexivity. Qed.
  Lemma inv_new S l n : inv S l n (new_obj S l n).
  Proof. unfold inv, new_obj; cbn. destruct S; repeat split; try congruence; try discriminate. Qed.
  Lemma inv_touch S l n p o : inv S l n o -> inv S l n (touch p o).
  Proof.
    intros (A2 & A3 & A4 & A5 & A6). pose proof (der_of o S A2) as A1. destruct (touch_su p o) as (u1 & u2 & u3 & u4), (touch_rest p o) as (r1 & r2 & r3 & r4).
    unfold inv. rewrite u2, u3, u4, r1, r2, r3, r4. auto 10.
  Qed.
  Lemma inv_derivatives S l n o : inv S l n o -> inv S l n (snd (read_derivatives o)).
  Proof.
    intros (A2 & A3 & A4 & A5 & A6). pose proof (der_of o S A2) as A1. pose proof (derivatives_case o) as K. destruct (read_derivatives o) as [r o'].
    destruct K as ((u1 & u2 & u3 & u4) & K2 & K3 & K4 & K5 & K6). cbn [snd].
    unfold inv. rewrite u2, u3, u4, K3, K4, K5. repeat (split; [assumption|]). split; [|auto].
    intros N. destruct r.
    - destruct K6 as (_ & K6). destruct (c_derivatives o) eqn:X; [apply A3; congruence|]. rewrite (A1 eq_refl) in K6. apply K6. reflexivity.
    - destruct K6 as (-> & N' & _). congruence.
  Qed.
  Lemma meta_kept S o o' : (c_derivatives o = None -> s_derivatives (o_sys o) = s_derivatives S) -> keeps o o' -> (c_derivatives o <> None -> exists ds, mapM (meta_of_derivative as_code) (enum (s_derivatives S)) = Ok ds) ->
    (c_derivatives o = None -> c_derivatives o' = None \/ exists ds, mapM (meta_of_derivative as_code) (enum (s_derivatives (o_sys o))) = Ok ds) ->
    c_derivatives o' <> None -> exists ds, mapM (meta_of_derivative as_code) (enum (s_derivatives S)) = Ok ds.
  Proof.
    intros D _ A B N. destruct (c_derivatives o) eqn:X; [apply A; discriminate|]. rewrite (D eq_refl) in B. destruct (B eq_refl); [congruence|assumption].
  Qed.
  Lemma inv_pseudo S l n o : inv S l n o -> inv S l n (snd (read_pseudo o)) /\
    match fst (read_pseudo o) with Ok ps => pseudo_system enum S l = Ok ps | Err _ => True end.
  Proof.
    intros (A2 & A3 & A4 & A5 & A6). pose proof (der_of o S A2) as A1. pose proof (pseudo_case o) as K. destruct (read_pseudo o) as [r o'].
    destruct K as ((u1 & u2 & u3 & u4) & K2 & K3 & K4 & K5 & K6). cbn [fst snd].
    assert (M := meta_kept S o o' A1 K2 A3 K5).
    assert (P : match c_pseudo o' with None => o_eqs o' = l | Some ps => pseudo_system enum S l = Ok ps end).
    { destruct r as [ps|e].
      - destruct K6 as (P1 & P2). rewrite P1. destruct (c_pseudo o) eqn:X.
        + destruct K2 as (_ & _ & k & _). apply k in X. congruence.
        + rewrite A2, A4 in P2. auto.
      - destruct K6 as (P1 & P2 & _). rewrite P2. rewrite P1 in A4. congruence. }
    split.
    - unfold inv. rewrite u3, u4, K3, K4. repeat (split; [first [assumption|reflexivity|exact M]|]). split; [|exact A6].
      intros t Ht. destruct (A5 t Ht) as (ps & B1 & B2). exists ps. split; [|exact B2]. destruct K2 as (_ & _ & k & _). auto.
    - destruct r; [|exact I]. destruct K6 as (P1 & _). rewrite P1 in P. exact P.
  Qed.
  Lemma inv_trend S l n o : inv S l n o -> inv S l n (snd (read_trend o)).
  Proof.
    intros (A2 & A3 & A4 & A5 & A6). pose proof (der_of o S A2) as A1. pose proof (trend_case o) as K. destruct (read_trend o) as [r o'].
    destruct K as ((u1 & u2 & u3 & u4) & K2 & K3 & K5 & K6). cbn [fst snd].
    assert (M := meta_kept S o o' A1 K2 A3 K5). pose proof K2 as (_ & _ & k3 & k4 & _).
    unfold inv. rewrite u3, u4, K3. repeat (split; [first [assumption|reflexivity|exact M]|]).
    rewrite A2 in K6. split; [|split; [|exact A6]].
    - destruct (c_pseudo o) as [ps|] eqn:X; [rewrite (k3 _ eq_refl); exact A4|]. rewrite A4 in K6.
      destruct r as [t|e].
      + destruct K6 as (K6 & K7 & K8). destruct (c_trend o) eqn:T; [destruct (A5 _ eq_refl) as (ps & Y & _); discriminate|].
        destruct K8 as (ps & B1 & B2 & B3); [reflexivity|]. rewrite B1. auto.
      + destruct K6 as (_ & _ & _ & [(_ & B1 & _)|(ps & B1 & B2 & B3)]); rewrite B1; [congruence|auto].
    - intros t Ht. destruct (c_trend o) eqn:T.
      + rewrite (k4 _ eq_refl) in Ht. injection Ht as <-. destruct (A5 _ eq_refl) as (ps & B1 & B2). exists ps. auto.
      + destruct r as [t'|e].
        * destruct K6 as (K6 & K7 & K8). destruct K8 as (ps & B1 & B2 & B3); [reflexivity|]. exists ps. rewrite K6 in Ht. injection Ht as <-. auto.
        * destruct K6 as (_ & K6 & _). congruence.
  Qed.
  Lemma inv_code S l n o : inv S l n o -> inv S l n (snd (read_code o)) /\
    agrees (fst (read_code o)) (b <- builder_of enum S l n print as_code ;; code body b).
  Proof.
    intros (A2 & A3 & A4 & A5 & A6). pose proof (der_of o S A2) as A1. pose proof (code_case o) as K. destruct (read_code o) as [r o'].
    destruct K as ((u1 & u2 & u3 & u4) & K2 & K3 & K4 & K5 & K6). cbn [fst snd].
    assert (M := meta_kept S o o' A1 K2 A3 K3). pose proof K2 as (_ & k2 & k3 & k4 & k5). rewrite A2 in *.
    assert (P : match c_pseudo o' with None => o_eqs o' = l | Some ps => pseudo_system enum S l = Ok ps end).
    { destruct (c_pseudo o) as [ps|] eqn:X; [rewrite (k3 _ eq_refl); exact A4|]. rewrite A4 in *.
      destruct (c_pseudo o'); [auto|]. congruence. }
    assert (T : forall t, c_trend o' = Some t -> exists ps, c_pseudo o' = Some ps /\ mapM (trend_text S print) ps = Ok t).
    { intros t Ht. destruct (c_trend o) eqn:T; [|auto]. rewrite (k4 _ eq_refl) in Ht. injection Ht as <-.
      destruct (A5 _ eq_refl) as (ps & B1 & B2). exists ps. auto. }
    destruct r as [s|e].
    - destruct K6 as (C1 & C2).
      assert (B : exists b, builder_of enum S l n print as_code = Ok b /\ code body b = Ok s).
      { destruct (c_code o) as [s'|] eqn:X.
        - rewrite (k5 _ eq_refl) in C1. injection C1 as <-. exact A6.
        - destruct C2 as (N & t & ds & T1 & D & C); [reflexivity|]. destruct (T t T1) as (ps & P1 & P2). rewrite P1 in P.
          exists (given S n ds t). rewrite A6 in C. split; [exact (builder_given S l n ps t ds P P2 D)|exact C]. }
      split.
      + unfold inv. rewrite u4, C1. repeat (split; [first [assumption|reflexivity|exact M]|]). exact B.
      + destruct B as (b & B1 & B2). rewrite B1. cbn. rewrite B2. reflexivity.
    - destruct K6 as (C1 & C2 & C3). split.
      + unfold inv. rewrite u3, u4, C2. repeat (split; [first [assumption|reflexivity|exact M]|]). rewrite C1 in A6. exact A6.
      + assert (E : forall s, (b <- builder_of enum S l n print as_code ;; code body b) <> Ok s).
        { intros s H. unfold builder_of in H. destruct C3 as [(N & e' & X)|(N & C3)].
          - rewrite (A1 N) in X. destruct (pseudo_system enum S l) as [ps|]; [|discriminate]. cbn in H.
            destruct (mapM (trend_text S print) ps); [|discriminate]. cbn in H. rewrite X in H. discriminate.
          - destruct C3 as [(N1 & N2 & N3 & N4 & e' & X)|[(ps & P1 & T1 & T2 & T3 & X)|(t & T1 & X)]].
            + rewrite N1 in A4. rewrite A4 in X. rewrite X in H. discriminate.
            + rewrite P1 in P. rewrite P in H. cbn in H. rewrite X in H. discriminate.
            + destruct (T t T1) as (ps & P1 & P2). rewrite P1 in P. rewrite P in H. cbn in H. rewrite P2 in H. cbn in H.
              destruct (mapM (meta_of_derivative as_code) (enum (s_derivatives S))) as [ds|]; [|discriminate]. cbn [bind] in H, X.
              change (code body (given S n ds t) = Ok s) in H. rewrite C1 in A6. rewrite A6 in X. rewrite X in H. discriminate. }
        unfold agrees. destruct (b <- builder_of enum S l n print as_code ;; code body b) as [s|]; [destruct (E s eq_refl)|]. eauto.
  Qed.
  Lemma inv_reads S l n h : forall o, inv S l n o -> Forall reads h -> inv S l n (history h o).
  Proof.
    induction h as [|a h IH]; intros o H F; [exact H|]. inversion F; subst. cbn. apply IH; [|assumption].
    destruct a; cbn in *; try contradiction.
    - apply inv_touch; exact H. - apply inv_derivatives; exact H. - apply inv_pseudo; exact H. - apply inv_trend; exact H. - apply inv_code; exact H.
  Qed.
  Lemma inv_early S h : forall l n o, inv S l n o -> c_pseudo o = None -> c_trend o = None -> c_code o = None -> Forall early h ->
    let o' := history h o in inv S (last_list l h) (last_name n h) o' /\ c_pseudo o' = None /\ c_trend o' = None /\ c_code o' = None.
  Proof.
    induction h as [|a h IH]; intros l n o H P T C F; [cbn; auto|]. inversion F; subst. cbn.
    destruct a; cbn in *; try contradiction.
    - destruct (touch_rest p o) as (r1 & r2 & r3 & r4). apply IH; first [congruence|apply inv_touch; exact H|assumption].
    - pose proof (inv_derivatives S l n o H) as I'. pose proof (derivatives_case o) as K. destruct (read_derivatives o) as [r o'].
      cbn in *. destruct K as (_ & _ & K3 & K4 & K5 & _). apply IH; first [congruence|assumption].
    - apply IH; try assumption. destruct H as (A2 & A3 & A4 & A5 & A6).
      unfold inv. destruct o; cbn in *. rewrite P, C in *. repeat split; auto; intros; congruence.
    - apply IH; try assumption. destruct H as (A2 & A3 & A4 & A5 & A6).
      unfold inv. destruct o; cbn in *. rewrite P, C in *. repeat split; auto; intros; congruence.
  Qed.
  Lemma history_app h1 h2 o : history (h1 ++ h2) o = history h2 (history h1 o).
  Proof. apply fold_left_app. Qed.

  Lemma any_order S l n h1 h2 : Forall early h1 -> Forall reads h2 ->
    agrees (fst (read_code (history (h1 ++ h2) (new_obj S l n))))
           (b <- builder_of enum S (last_list l h1) (last_name n h1) print as_code ;; code body b).
  Proof.
    intros F1 F2. rewrite history_app. destruct (inv_early S h1 l n _ (inv_new S l n) eq_refl eq_refl eq_refl F1) as (I1 & _).
    apply inv_code. apply inv_reads; assumption.
  Qed.

  (** after the pseudo-algebraic system has been read, the list of equations has no effect *)
  Lemma inv_late S l n h : forall o ps, inv S l n o -> c_pseudo o = Some ps -> c_code o = None -> Forall before_code h ->
    let o' := history h o in inv S l (last_name n h) o' /\ c_pseudo o' = Some ps /\ c_code o' = None.
  Proof.
    revert n. induction h as [|a h IH]; intros n o ps H P C F; [cbn; auto|]. inversion F; subst. cbn.
    pose proof (act_keeps o a) as (_ & _ & k3 & _). apply k3 in P as P'.
    destruct a; cbn in *; try contradiction.
    - destruct (touch_rest p o) as (r1 & r2 & r3 & r4). apply (IH n _ ps); first [congruence|apply inv_touch; exact H|assumption].
    - pose proof (inv_derivatives S l n o H) as I'. pose proof (derivatives_case o) as K. destruct (read_derivatives o) as [r o'].
      cbn in *. destruct K as (_ & _ & K3 & K4 & K5 & _). apply (IH n _ ps); first [congruence|assumption].
    - pose proof (inv_pseudo S l n o H) as (I' & _). pose proof (pseudo_case o) as K. destruct (read_pseudo o) as [r o'].
      cbn in *. destruct K as (_ & _ & K4 & K5 & _). apply (IH n _ ps); first [congruence|assumption].
    - pose proof (inv_trend S l n o H) as I'. pose proof (trend_case o) as K. destruct (read_trend o) as [r o'].
      cbn in *. destruct K as (_ & _ & K5 & _). apply (IH n _ ps); first [congruence|assumption].
    - apply (IH n _ ps); try assumption. destruct H as (A2 & A3 & A4 & A5 & A6).
      unfold inv. destruct o; cbn in *. rewrite P, C in *. repeat split; auto; intros; congruence.
    - apply (IH s _ ps); try assumption. destruct H as (A2 & A3 & A4 & A5 & A6).
      unfold inv. destruct o; cbn in *. rewrite P, C in *. repeat split; auto; intros; congruence.
  Qed.
  Lemma late_edit S l n h1 h2 ps : Forall early h1 -> fst (read_pseudo (history h1 (new_obj S l n))) = Ok ps -> Forall before_code h2 ->
    agrees (fst (read_code (history (h1 ++ ReadPseudo :: h2) (new_obj S l n))))
           (b <- builder_of enum S (last_list l h1) (last_name n (h1 ++ h2)) print as_code ;; code body b).
  Proof.
    intros F1 E F2. rewrite history_app. destruct (inv_early S h1 l n _ (inv_new S l n) eq_refl eq_refl eq_refl F1) as (I1 & P1 & T1 & C1).
    set (o := history h1 (new_obj S l n)) in *. clearbody o. cbn.
    destruct (inv_pseudo _ _ _ o I1) as (I2 & _). pose proof (pseudo_case o) as K. destruct (read_pseudo o) as [r o']. cbn in E, I2 |- *. subst r.
    destruct K as (_ & _ & K4 & K5 & _ & K6 & _).
    destruct (inv_late S (last_list l h1) (last_name n h1) h2 o' ps I2 K6) as (I3 & _); [congruence|exact F2|].
    assert (X : last_name n (h1 ++ h2) = last_name (last_name n h1) h2).
    { clear. revert n. induction h1 as [|a h1 IH]; intros n; [reflexivity|]. destruct a; cbn; apply IH. }
    rewrite X. apply inv_code. exact I3.
  Qed.

  (** a failure of the trend on a pseudo-algebraic system that is cached *)
  Definition stuck (e : exn) (o : obj) : Prop := c_trend o = None /\ c_code o = None /\
    exists P ps, c_prognostic o = Some P /\ c_pseudo o = Some ps /\ forall S, s_prognostic S = P -> mapM (trend_text S print) ps = Err e.
  Lemma trend_text_ext S S' q : s_prognostic S = s_prognostic S' -> trend_text S print q = trend_text S' print q.
  Proof. intros E. unfold trend_text, subs_trend. rewrite E. reflexivity. Qed.
  Lemma trend_texts_ext S S' ps : s_prognostic S = s_prognostic S' -> mapM (trend_text S print) ps = mapM (trend_text S' print) ps.
  Proof. intros E. induction ps as [|q ps IH]; [reflexivity|]. cbn. rewrite (trend_text_ext S S' q E), IH. reflexivity. Qed.
  Lemma stuck_view e o : stuck e o -> forall ps, c_pseudo o = Some ps -> mapM (trend_text (view o) print) ps = Err e.
  Proof. intros (_ & _ & P & ps' & A & B & C) ps H. rewrite B in H. injection H as <-. apply C. destruct o; cbn in *. rewrite A. reflexivity. Qed.
  Lemma stuck_keeps e o o' : stuck e o -> keeps o o' -> c_trend o' = None -> c_code o' = None -> stuck e o'.
  Proof.
    intros (_ & _ & P & ps & A & B & C) (k1 & _ & k3 & _) T D. split; [exact T|]. split; [exact D|]. exists P, ps.
    split; [exact (k1 PPrognostic P A)|]. auto.
  Qed.
  Lemma stuck_trend e o : stuck e o -> fst (read_trend o) = Err e /\ stuck e (snd (read_trend o)).
  Proof.
    intros H. pose proof (stuck_view e o H) as V. pose proof H as (T & C & P & ps & A & B & D). pose proof (trend_case o) as K. destruct (read_trend o) as [r o'].
    destruct K as (K1 & K2 & K3 & K4 & K5). cbn. destruct r as [t|e'].
    - destruct K5 as (_ & _ & K5). destruct (K5 T) as (ps' & X & Y & _). pose proof K2 as (_ & _ & k3 & _). rewrite (k3 _ B) in X. injection X as <-.
      rewrite (V ps B) in Y. discriminate.
    - destruct K5 as (_ & T' & _ & [(N & _)|(ps' & X & Y & _)]); [congruence|].
      pose proof K2 as (_ & _ & k3 & _). rewrite (k3 _ B) in X. injection X as <-. rewrite (V ps B) in Y. injection Y as <-.
      split; [reflexivity|]. eapply stuck_keeps; try eassumption. congruence.
  Qed.
  Lemma stuck_code e o : stuck e o -> (exists e', fst (read_code o) = Err e' /\ (c_derivatives o <> None -> e' = e)) /\ stuck e (snd (read_code o)).
  Proof.
    intros H. pose proof (stuck_view e o H) as V. pose proof H as (T & C & P & ps & A & B & D). pose proof (code_case o) as K. destruct (read_code o) as [r o'].
    destruct K as (K1 & K2 & K3 & K4 & K5 & K6). cbn. pose proof K2 as (_ & _ & k3 & _).
    assert (T' : c_trend o' = None).
    { destruct (c_trend o') eqn:X; [|reflexivity]. destruct (K4 _ T eq_refl) as (ps' & Y & Z). rewrite (k3 _ B) in Y. injection Y as <-.
      rewrite (V ps B) in Z. discriminate. }
    destruct r as [s|e'].
    - destruct K6 as (_ & K6). destruct (K6 C) as (_ & t & ds & X & _). congruence.
    - destruct K6 as (_ & C' & K6). split; [|eapply stuck_keeps; eassumption]. exists e'. split; [reflexivity|]. intros N.
      destruct K6 as [(N' & _)|(_ & [(N' & _)|[(ps' & X & _ & _ & _ & Y)|(t & X & _)]])]; try congruence.
      rewrite (k3 _ B) in X. injection X as <-. rewrite (V ps B) in Y. injection Y as <-. reflexivity.
  Qed.
  Lemma stuck_act e o a : stuck e o -> stuck e (act o a).
  Proof.
    intros H. pose proof H as (T & C & _). pose proof (act_keeps o a) as K. destruct a; cbn [BuilderObjModel.act] in *.
    - destruct (touch_rest p o) as (r1 & r2 & r3 & r4). eapply stuck_keeps; try eassumption; congruence.
    - pose proof (derivatives_case o) as D. destruct (read_derivatives o) as [r o']. cbn in *. destruct D as (_ & _ & D3 & D4 & D5 & _).
      eapply stuck_keeps; try eassumption; congruence.
    - pose proof (pseudo_case o) as D. destruct (read_pseudo o) as [r o']. cbn in *. destruct D as (_ & _ & D3 & D4 & D5 & _).
      eapply stuck_keeps; try eassumption; congruence.
    - apply stuck_trend; exact H.
    - apply stuck_code; exact H.
    - eapply stuck_keeps; eassumption.
    - eapply stuck_keeps; eassumption.
    - eapply stuck_keeps; eassumption.
  Qed.
  Lemma stuck_history e h : forall o, stuck e o -> stuck e (history h o).
  Proof. induction h as [|a h IH]; intros o H; [exact H|]. apply IH, stuck_act, H. Qed.

  (** an equation whose function is not prognostic for the system *)
  Lemma key_error S ps q f v : In q ps -> fst q = SDer f v -> ~ In f (s_prognostic S) ->
    (forall q', In q' ps -> exists f' v', fst q' = SDer f' v') -> mapM (trend_text S print) ps = Err KeyError.
  Proof.
    intros Hin Hq Nf All. induction ps as [|q' ps IH]; [destruct Hin|]. cbn.
    destruct (All q' (or_introl eq_refl)) as (f' & v' & E'). unfold trend_text at 1. rewrite E'.
    unfold dgetE. destruct (dget sx_eq_dec f' (subs_trend S)) as [x|] eqn:G; [|reflexivity]. cbn.
    destruct Hin as [->|Hin].
    - exfalso. rewrite Hq in E'. injection E' as -> ->. apply Nf. clear - G. unfold subs_trend in G. revert G.
      assert (X : forall l d, dget sx_eq_dec f' (fold_left (fun d f => dset sx_eq_dec f (function_trend f) d) l d) = Some x -> In f' l \/ dget sx_eq_dec f' d = Some x).
      { induction l as [|g l IH]; intros d H; [auto|]. cbn in H. destruct (IH _ H) as [I|I]; [left; right; exact I|].
        destruct (sx_eq_dec g f') as [->|N]; [left; left; reflexivity|]. right. rewrite <- I. symmetry. rewrite dget_dset. destruct (sx_eq_dec f' g); [congruence|reflexivity]. }
      intros G. destruct (X _ _ G) as [I|I]; [exact I|discriminate].
    - rewrite IH; [reflexivity|exact Hin|]. intros; apply All; right; assumption.
  Qed.

  Local Transparent pseudo_system.
  Lemma pseudo_lhs S l ps : pseudo_system enum S l = Ok ps -> map fst ps = map fst l /\ forall q, In q l -> exists f v, fst q = SDer f v.
  Proof.
    unfold pseudo_system. revert ps. induction l as [|q l IH]; intros ps H; cbn in H.
    - injection H as <-. split; [reflexivity|intros q []].
    - destruct (pseudo_equation enum S q) as [q'|] eqn:E; [|discriminate]. cbn in H.
      destruct (mapM (pseudo_equation enum S) l) as [ps'|] eqn:M; [|discriminate]. injection H as <-.
      destruct (IH ps' eq_refl) as (I1 & I2). unfold pseudo_equation in E. destruct (get_trend q) as [d|] eqn:G; [|discriminate].
      destruct (sx_eq_dec (fst q) d) as [Ed|]; [|discriminate].
      destruct (subs_derivatives enum S (snd q)); [|discriminate]. injection E as <-. split; [cbn; congruence|].
      intros q0 [<-|I0]; [|auto]. rewrite Ed. unfold get_trend in G.
      assert (X : In d (filter is_trend (eq_atoms is_derivative q))).
      { destruct (filter is_trend (eq_atoms is_derivative q)) as [|d' [|]]; try discriminate. injection G as <-. left; reflexivity. }
      apply filter_In in X. destruct X as (_ & X). destruct d; try discriminate. eauto.
  Qed.
  Local Opaque pseudo_system.

  Lemma appended S l n h1 q f v ps ds : Forall early h1 -> In q (last_list l h1) -> fst q = SDer f v -> ~ In f (s_prognostic S) ->
    pseudo_system enum S (last_list l h1) = Ok ps -> mapM (meta_of_derivative as_code) (enum (s_derivatives S)) = Ok ds ->
    let o := history h1 (new_obj S l n) in
    fst (read_code o) = Err KeyError /\ forall h, fst (read_code (history h (snd (read_code o)))) = Err KeyError.
  Proof.
    intros F Hq Eq Nf P D. cbv zeta. destruct (inv_early S h1 l n _ (inv_new S l n) eq_refl eq_refl eq_refl F) as (I1 & P1 & T1 & C1).
    set (o := history h1 (new_obj S l n)) in *. clearbody o.
    destruct (pseudo_lhs _ _ _ P) as (L1 & L2).
    assert (KE : mapM (trend_text S print) ps = Err KeyError).
    { assert (M : In (SDer f v) (map fst ps)) by (rewrite L1, <- Eq; apply in_map; exact Hq).
      apply in_map_iff in M. destruct M as (q1 & E1 & I2). apply (key_error S ps q1 f v I2 E1 Nf).
      intros q' I'. assert (M : In (fst q') (map fst (last_list l h1))) by (rewrite <- L1; apply in_map; exact I').
      apply in_map_iff in M. destruct M as (q2 & E2 & I3). destruct (L2 q2 I3) as (f' & v' & X). exists f', v'. congruence. }
    destruct (inv_code _ _ _ o I1) as (I2 & A). pose proof (code_case o) as K.
    pose proof I1 as (i2 & i3 & i4 & i5 & i6). pose proof (der_of o S i2) as i1. rewrite P1 in i4.
    destruct (read_code o) as [r o']. cbn [fst snd] in *. destruct K as (K1 & K2 & K3 & K4 & K5 & K6). rewrite i2 in *.
    destruct I2 as (_ & _ & j4 & j5 & _).
    destruct r as [s|e].
    - exfalso. unfold agrees, builder_of in A. rewrite P in A. cbn in A. rewrite KE in A. cbn in A. destruct A; discriminate.
    - destruct K6 as (_ & C2 & [(N & e' & X)|(N & [(_ & _ & _ & _ & e' & X)|[(ps' & X1 & X2 & X3 & X4 & X5)|(t & X & _)]])]).
      + rewrite (i1 N) in X. congruence.
      + rewrite i4 in X. congruence.
      + rewrite X1 in j4. rewrite P in j4. injection j4 as <-. rewrite KE in X5. injection X5 as <-. split; [reflexivity|].
        assert (ST : stuck KeyError o').
        { split; [exact X3|]. split; [exact C2|]. destruct (c_prognostic o') as [Pr|] eqn:XP; [|congruence]. exists Pr, ps. split; [reflexivity|]. split; [exact X1|].
          intros S' ES. rewrite <- KE. apply trend_texts_ext. rewrite ES. destruct K1 as (_ & _ & _ & k4). apply (f_equal s_prognostic) in k4.
          rewrite i2 in k4. cbn in k4. rewrite XP in k4. exact k4. }
        intros h. pose proof (stuck_history KeyError h o' ST) as ST'. destruct (stuck_code _ _ ST') as ((e' & E1 & E2) & _). rewrite E1, E2; [reflexivity|].
        destruct (c_derivatives o') eqn:XD; [|congruence]. destruct (history_keeps h o') as (_ & kd & _). rewrite (kd _ XD). discriminate.
      + destruct (j5 t X) as (ps' & Y1 & Y2). rewrite Y1 in j4. rewrite P in j4. injection j4 as <-. congruence.
  Qed.

  (** a file takes the present name of the class and the cached code *)
  Lemma written o s h files : fst (read_code o) = Ok s ->
    let o' := history h (snd (read_code o)) in
    fst (write_obj enum print as_code body o' files) = Ok (dset string_dec (lower (o_class o') ++ ".py")%string (licence ++ s)%string files).
  Proof.
    intros H o'. pose proof (frozen o s h H) as X. fold o' in X. unfold write_obj. pose proof (code_case o') as K. destruct (read_code o') as [r o1]. cbn in X. subst r.
    destruct K as ((_ & _ & E & _) & _). cbn [fst]. rewrite E. reflexivity.
  Qed.
  Lemma class_after h : forall o, o_class (history h o) = last_name (o_class o) h.
  Proof.
    induction h as [|a h IH]; intros o; [reflexivity|]. change (history (a :: h) o) with (history h (act o a)). rewrite IH.
    destruct a; cbn [BuilderObjModel.act last_name]; try reflexivity; f_equal.
    - apply touch_su.
    - pose proof (derivatives_case o) as K. destruct (read_derivatives o). apply K.
    - pose proof (pseudo_case o) as K. destruct (read_pseudo o). apply K.
    - pose proof (trend_case o) as K. destruct (read_trend o). apply K.
    - pose proof (code_case o) as K. destruct (read_code o). apply K.
  Qed.
  Lemma renamed S l n h1 h2 s files : fst (read_code (history h1 (new_obj S l n))) = Ok s ->
    fst (write_obj enum print as_code body (history h2 (snd (read_code (history h1 (new_obj S l n))))) files) =
      Ok (dset string_dec (lower (last_name n (h1 ++ h2)) ++ ".py")%string (licence ++ s)%string files).
  Proof.
    intros H. rewrite (written _ s h2 files H). do 3 f_equal. rewrite class_after.
    pose proof (code_case (history h1 (new_obj S l n))) as K. destruct (read_code (history h1 (new_obj S l n))) as [r o']. cbn in *.
    destruct K as ((_ & _ & E & _) & _). rewrite E, class_after. cbn.
    clear. revert n. induction h1 as [|a h1 IH]; intros n; [reflexivity|]. destruct a; cbn; apply IH.
  Qed.

  (** a failure before the pseudo-algebraic system is cached *)
  Lemma retried S l n h1 h2 h3 l' e : Forall early h1 -> Forall reads h2 -> Forall reads h3 -> pseudo_system enum S (last_list l h1) = Err e ->
    (exists e', fst (read_code (history (h1 ++ h2) (new_obj S l n))) = Err e') /\
    agrees (fst (read_code (history (h1 ++ h2 ++ Edit l' :: h3) (new_obj S l n))))
           (b <- builder_of enum S l' (last_name n h1) print as_code ;; code body b).
  Proof.
    intros F1 F2 F3 E. rewrite !history_app. destruct (inv_early S h1 l n _ (inv_new S l n) eq_refl eq_refl eq_refl F1) as (I1 & P1 & T1 & C1).
    set (o := history h1 (new_obj S l n)) in *. clearbody o.
    pose proof (inv_reads S _ _ h2 o I1 F2) as I2. set (o2 := history h2 o) in *. clearbody o2. split.
    - destruct (inv_code _ _ _ o2 I2) as (_ & A). unfold agrees, builder_of in A. rewrite E in A. exact A.
    - change (history (Edit l' :: h3) o2) with (history h3 (set_user (o_sys o2) l' (o_class o2) o2)).
      apply inv_code. apply inv_reads; [|exact F3]. destruct I2 as (A2 & A3 & A4 & A5 & A6).
      destruct (c_pseudo o2) eqn:X; [congruence|].
      assert (C : c_code o2 = None).
      { destruct (c_code o2) eqn:Y; [|reflexivity]. destruct A6 as (b & B & _). unfold builder_of in B. rewrite E in B. discriminate. }
      rewrite C in A6. unfold inv. destruct o2; cbn in *. rewrite X, C. repeat split; auto; intros t Ht; destruct (A5 t Ht) as (? & ? & _); congruence.
  Qed.

  (** the caches after a history of early actions *)
  Lemma early_caches (S : pdes) h : Forall early h -> forall o, o_sys o = S ->
    (forall p, cached p (history h o) = match cached p o with Some l => Some l | None => if existsb (fun a => match a with Read q => if part_dec p q then true else false | _ => false end) h then Some (source_of p S) else None end) /\ ((exists ds, mapM (meta_of_derivative as_code) (enum (s_derivatives S)) = Ok ds) \/ ~ In ReadDerivatives h ->
     (In ReadDerivatives h -> c_derivatives (history h o) = match c_derivatives o with Some l => Some l | None => Some (s_derivatives S) end) /\ (~ In ReadDerivatives h -> c_derivatives (history h o) = c_derivatives o)).
  Proof.
    induction h as [|a h IH]; intros F o E.
    - cbn. split; [intros p; destruct (cached p o); reflexivity|]. intros _. split; [intros []|reflexivity].
    - assert (H1 := Forall_inv F). assert (H2 := Forall_inv_tail F). change (history (a :: h) o) with (history h (act o a)).
      destruct a; cbn in H1; try contradiction.
      + destruct (IH H2 (touch p o)) as [A B]; [destruct (touch_su p o) as (u & _); congruence|]. cbn [BuilderObjModel.act]. destruct (touch_rest p o) as (r1 & _). split.
        * intros q. rewrite A. cbn [existsb]. destruct (part_dec q p) as [->|N].
          -- unfold touch. destruct (cached p o) eqn:X; [rewrite X; reflexivity|]. rewrite E. destruct p; reflexivity.
          -- assert (X : cached q (touch p o) = cached q o). { unfold touch. destruct (cached p o); [reflexivity|]. destruct p, q; try reflexivity; congruence. } rewrite X. reflexivity.
        * intros D. rewrite r1 in B. destruct B as [B1 B2]; [destruct D as [D|D]; [left; exact D|right; intros Z; apply D; right; exact Z]|].
          split; [intros [Z|Z]; [discriminate|auto]|]. intros Z. apply B2. intros Y. apply Z. right. exact Y.
      + cbn [BuilderObjModel.act]. pose proof (derivatives_case o) as K. unfold BuilderObjModel.read_derivatives in *.
        destruct (c_derivatives o) as [l|] eqn:X; cbn [snd] in *.
        * destruct (IH H2 o E) as [A B]. split; [exact A|]. intros [D|D]; [|exfalso; apply D; left; reflexivity].
          destruct (B (or_introl D)) as [B1 B2]. rewrite X in *. split; [intros _|intros Z; exfalso; apply Z; left; reflexivity].
          destruct (rd_in h) as [Y|Y]; auto.
        * destruct (mapM (meta_of_derivative as_code) (enum (s_derivatives (o_sys o)))) as [ds|e] eqn:M; cbn [snd].
          -- destruct (IH H2 (put_derivatives (s_derivatives (o_sys o)) o) E) as [A B]. split; [intros q; rewrite A; destruct q; reflexivity|].
             intros [D|D]; [|exfalso; apply D; left; reflexivity].
             destruct (B (or_introl D)) as [B1 B2]. cbn in B1, B2. split; [intros _|intros Z; exfalso; apply Z; left; reflexivity].
             rewrite E in *. destruct (rd_in h) as [Y|Y]; auto.
          -- destruct (IH H2 o E) as [A B]. split; [exact A|].
             intros [(ds & D)|D]; [|exfalso; apply D; left; reflexivity]. rewrite E in M. congruence.
      + cbn [BuilderObjModel.act]. destruct (IH H2 (set_user (o_sys o) l (o_class o) o)) as [A B]; [exact E|]. split; [intros q; rewrite A; destruct q; reflexivity|].
        cbn in B. intros D. destruct B as [B1 B2]; [destruct D as [D|D]; [left; exact D|right; intros Z; apply D; right; exact Z]|].
        split; [intros [Z|Z]; [discriminate|auto]|]. intros Z. apply B2. intros Y. apply Z. right. exact Y.
      + cbn [BuilderObjModel.act]. destruct (IH H2 (set_user (o_sys o) (o_eqs o) s o)) as [A B]; [exact E|]. split; [intros q; rewrite A; destruct q; reflexivity|].
        cbn in B. intros D. destruct B as [B1 B2]; [destruct D as [D|D]; [left; exact D|right; intros Z; apply D; right; exact Z]|].
        split; [intros [Z|Z]; [discriminate|auto]|]. intros Z. apply B2. intros Y. apply Z. right. exact Y.
  Qed.
  Lemma read_in p h : if existsb (fun a => match a with Read q => if part_dec p q then true else false | _ => false end) h then In (Read p) h else ~ In (Read p) h.
  Proof.
    induction h as [|a h IH]; [intros []|]. cbn. destruct a; cbn; try (destruct (existsb _ h); [right; exact IH|intros [Z|Z]; [discriminate|exact (IH Z)]]).
    destruct (part_dec p p0) as [->|N]; [left; reflexivity|]. cbn. destruct (existsb _ h); [right; exact IH|intros [Z|Z]; [congruence|exact (IH Z)]].
  Qed.
  Lemma assigned S T V l l' n h1 h2 h3 : Forall early h1 -> Forall early h2 -> Forall reads h3 ->
    mixture S T h1 V -> (In ReadDerivatives h1 -> fst (read_derivatives (new_obj S l n)) = Ok tt) ->
    agrees (fst (read_code (history (h1 ++ Assign T l' :: h2 ++ h3) (new_obj S l n))))
           (b <- builder_of enum V (last_list l' h2) (last_name n (h1 ++ h2)) print as_code ;; code body b).
  Proof.
    intros F1 F2 F3 M D. rewrite history_app. destruct (inv_early S h1 l n _ (inv_new S l n) eq_refl eq_refl eq_refl F1) as (I1 & P1 & T1 & C1).
    destruct (early_caches S h1 F1 (new_obj S l n) eq_refl) as [A B].
    assert (N1 : o_class (history h1 (new_obj S l n)) = last_name n h1) by (rewrite class_after; reflexivity).
    assert (X : last_name n (h1 ++ h2) = last_name (last_name n h1) h2).
    { clear. revert n. induction h1 as [|a h1 IH]; intros n; [reflexivity|]. destruct a; cbn; apply IH. }
    rewrite X, <- N1. set (o := history h1 (new_obj S l n)) in *. clearbody o.
    change (history (Assign T l' :: h2 ++ h3) o) with (history (h2 ++ h3) (set_user T l' (o_class o) o)). rewrite history_app.
    assert (DM : (exists ds, mapM (meta_of_derivative as_code) (enum (s_derivatives S)) = Ok ds) \/ ~ In ReadDerivatives h1).
    { destruct (rd_in h1) as [Y|Y]; [left|right; exact Y]. specialize (D Y). unfold BuilderObjModel.read_derivatives in D. cbn in D.
      destruct (mapM _ _) as [ds|]; [eauto|discriminate]. }
    destruct (B DM) as [B1 B2]. cbn in B1, B2.
    assert (VW : view (set_user T l' (o_class o) o) = V).
    { assert (G : forall p (c : option (list sx)) x, cached p o = c -> (In (Read p) h1 -> x = source_of p S) -> (~ In (Read p) h1 -> x = source_of p T) ->
                    match c with Some y => y | None => source_of p T end = x).
      { intros p c x Hc H1 H2. rewrite A in Hc. replace (cached p (new_obj S l n)) with (@None (list sx)) in Hc by (destruct p; reflexivity). pose proof (read_in p h1) as R.
        destruct (existsb _ h1); subst c; symmetry; auto. }
      destruct M as [m1 m2 m3 m4 m5 m6 m7 m8 m9 m10]. destruct V as [f p c e k sp tr co de mo]. cbn in *. unfold view, set_user. cbn. f_equal; try congruence.
      - apply (G PFunctions); [reflexivity|apply m1|apply m1]. - apply (G PPrognostic); [reflexivity|apply m2|apply m2].
      - apply (G PConstant); [reflexivity|apply m3|apply m3]. - apply (G PExogenous); [reflexivity|apply m4|apply m4].
      - apply (G PCoordinates); [reflexivity|apply m6|apply m6]. - apply (G PConstants); [reflexivity|apply m5|apply m5].
      - destruct (rd_in h1) as [Y|Y]; [rewrite (B1 Y)|rewrite (B2 Y)]; symmetry; apply m7; exact Y. }
    assert (I2 : inv V l' (o_class o) (set_user T l' (o_class o) o)).
    { destruct I1 as (a2 & a3 & a4 & a5 & a6). split; [exact VW|]. split; [|cbn; rewrite P1, C1, T1; repeat split; intros; discriminate].
      cbn. intros Z. destruct (rd_in h1) as [Y|Y]; [|rewrite (B2 Y) in Z; congruence].
      destruct M as [m1 m2 m3 m4 m5 m6 m7 m8 m9 m10]. destruct m7 as [m7 _]. rewrite (m7 Y). destruct DM as [DM|DM]; [exact DM|contradiction]. }
    destruct (inv_early V h2 l' _ _ I2 P1 T1 C1 F2) as (I3 & _).
    apply inv_code. apply inv_reads; assumption.
  Qed.
End Proofs.
