(** Proofs about CodegenModel. *)
From Coq Require Import List Arith Bool String QArith Permutation Lia Sorted.
From Verif Require Import PyBase PyBaseFacts SymModel RandomModel RandomProofs PDEModel PDESpec PDEProofs StrModel CodegenModel CodegenSpec.
Import ListNotations.
Close Scope Q_scope.
Open Scope nat_scope.
Open Scope string_scope.
Open Scope list_scope.

(** ** leaves *)
Fixpoint lmap (f : sx -> sx) (e : sx) : sx :=
  match e with
  | SAdd l => SAdd (map (lmap f) l)
  | SMul l => SMul (map (lmap f) l)
  | SPow b x => SPow (lmap f b) (lmap f x)
  | _ => f e
  end.
Fixpoint leaves (e : sx) : list sx :=
  match e with
  | SAdd l | SMul l => flat_map leaves l
  | SPow b x => leaves b ++ leaves x
  | _ => [e]
  end.
Definition leaf (e : sx) : Prop := match e with SAdd _ | SMul _ | SPow _ _ => False | _ => True end.

Lemma leaves_leaf e : forall x, In x (leaves e) -> leaf x.
Proof.
  induction e using sx_ind'; simpl; intros x H0; try (destruct H0 as [<-|[]]; exact Logic.I).
  - apply in_flat_map in H0 as (y & Hy & Hx). rewrite Forall_forall in H. eauto.
  - apply in_flat_map in H0 as (y & Hy & Hx). rewrite Forall_forall in H. eauto.
  - apply in_app_or in H0 as [H0|H0]; eauto.
Qed.
Lemma lmap_leaf f x : leaf x -> lmap f x = f x.
Proof. destruct x; simpl; tauto. Qed.
Lemma lmap_ext f g e : (forall x, In x (leaves e) -> f x = g x) -> lmap f e = lmap g e.
Proof.
  induction e using sx_ind'; simpl; intros E; auto.
  - f_equal. apply map_ext_in. intros a Ha. rewrite Forall_forall in H. apply H; auto. intros x Hx. apply E.
    apply in_flat_map; eauto.
  - f_equal. apply map_ext_in. intros a Ha. rewrite Forall_forall in H. apply H; auto. intros x Hx. apply E.
    apply in_flat_map; eauto.
  - rewrite IHe1, IHe2; auto; intros x Hx; apply E; apply in_or_app; auto.
Qed.
Lemma lmap_id e : lmap (fun x => x) e = e.
Proof.
  induction e using sx_ind'; simpl; auto; try congruence;
    f_equal; rewrite <- (map_id l) at 2; apply map_ext_in; intros a Ha; rewrite Forall_forall in H; auto.
Qed.
Lemma lmap_lmap f g e : (forall x, In x (leaves e) -> leaf (f x)) -> lmap g (lmap f e) = lmap (fun x => g (f x)) e.
Proof.
  induction e using sx_ind'; simpl; intros E; try (apply lmap_leaf; apply E; simpl; auto; fail).
  - f_equal. rewrite map_map. apply map_ext_in. intros a Ha. rewrite Forall_forall in H. apply H; auto.
    intros x Hx. apply E. apply in_flat_map; eauto.
  - f_equal. rewrite map_map. apply map_ext_in. intros a Ha. rewrite Forall_forall in H. apply H; auto.
    intros x Hx. apply E. apply in_flat_map; eauto.
  - rewrite IHe1, IHe2; auto; intros x Hx; apply E; apply in_or_app; auto.
Qed.
Lemma leaves_lmap f e : (forall x, In x (leaves e) -> leaf (f x)) -> leaves (lmap f e) = map f (leaves e).
Proof.
  assert (L : forall x, leaf x -> leaves x = [x]) by (intros []; simpl; tauto).
  assert (G : forall l, Forall (fun e => (forall x, In x (leaves e) -> leaf (f x)) -> leaves (lmap f e) = map f (leaves e)) l ->
     (forall x, In x (flat_map leaves l) -> leaf (f x)) -> flat_map leaves (map (lmap f) l) = map f (flat_map leaves l)).
  { induction 1 as [|a l H _ IH]; simpl; auto. intros E. rewrite map_app, H, IH; auto; intros x Hx; apply E; apply in_or_app; auto. }
  induction e using sx_ind'; simpl; intros E; try (apply L; apply E; simpl; auto; fail); auto.
  rewrite map_app, IHe1, IHe2; auto; intros x Hx; apply E; apply in_or_app; auto.
Qed.

(** ** one substitution acts on the leaves *)
Definition repl (old new x : sx) : sx := if sx_eq_dec x old then new else x.
Definition safe (old x : sx) : Prop := x <> old ->
  match x with
  | SNum _ | SSym _ _ => True
  | SApp _ _ => forall new, subs1 old new x = x
  | SDer g v => match old with
                | SDer g' v' => (g = g' -> sub_count v' v = false)
                | _ => True
                end /\ forall new, subs1 old new g = g
  | _ => False
  end.

Lemma subs1_id old new e : ~ In old (subterms e) -> (forall d, In d (subterms e) -> is_derivative d = false) -> subs1 old new e = e.
Proof.
  induction e using sx_ind'; intros N D;
    (match goal with |- subs1 _ _ ?e = _ => assert (NE : e <> old) by (intros <-; apply N; simpl; auto) end);
    cbn [subs1]; destruct (sx_eq_dec _ old) as [E|_]; try contradiction; auto.
  - f_equal. rewrite <- (map_id l) at 2. apply map_ext_in. intros a Ha. rewrite Forall_forall in H. apply H; auto.
    + intros Hi. apply N. right. apply in_flat_map; eauto.
    + intros d Hd. apply D. right. apply in_flat_map; eauto.
  - f_equal. apply IHe; [intros Hi; apply N; right; auto|intros d Hd; apply D; right; auto].
  - specialize (D (SDer e v) (or_introl eq_refl)). discriminate.
  - f_equal.
    + apply IHe; [intros Hi; apply N; right; apply in_or_app; auto|intros d Hd; apply D; right; apply in_or_app; auto].
    + rewrite <- (map_id l) at 2. apply map_ext_in. intros [c b] Hb. cbn [fst snd]. f_equal.
      rewrite Forall_forall in H. specialize (H _ Hb). cbn [snd] in H. rewrite Forall_forall in H.
      rewrite <- (map_id b) at 2. apply map_ext_in. intros a Ha. 
      assert (I : forall y, In y (subterms a) -> In y (subterms (SInt e l))).
      { apply child_subterms. eapply ch_bound; eauto. }
      apply H; auto.
  - f_equal. rewrite <- (map_id l) at 2. apply map_ext_in. intros a Ha. rewrite Forall_forall in H. apply H; auto.
    + intros Hi. apply N. right. apply in_flat_map; eauto.
    + intros d Hd. apply D. right. apply in_flat_map; eauto.
  - f_equal. rewrite <- (map_id l) at 2. apply map_ext_in. intros a Ha. rewrite Forall_forall in H. apply H; auto.
    + intros Hi. apply N. right. apply in_flat_map; eauto.
    + intros d Hd. apply D. right. apply in_flat_map; eauto.
  - f_equal; [apply IHe1|apply IHe2]; try (intros Hi; apply N; right; apply in_or_app; auto);
      intros d Hd; apply D; right; apply in_or_app; auto.
  - f_equal. rewrite <- (map_id l) at 2. apply map_ext_in. intros a Ha. rewrite Forall_forall in H. apply H; auto.
    + intros Hi. apply N. right. apply in_flat_map; eauto.
    + intros d Hd. apply D. right. apply in_flat_map; eauto.
Qed.

Definition simple (e : sx) : Prop := forall y, In y (leaves e) ->
  match y with SNum _ | SSym _ _ | SApp _ _ | SDer _ _ => True | _ => False end.
Definition is_leaf_old (o : sx) : Prop := match o with SApp _ _ | SEx _ | SDer _ _ | SSym _ _ => True | _ => False end.

Lemma subs1_lmap old new e : is_leaf_old old -> (forall x, In x (leaves e) -> safe old x) ->
  subs1 old new e = lmap (repl old new) e.
Proof.
  intros Lo. induction e using sx_ind'; intros Sf; cbn [subs1 lmap]; unfold repl at 1.
  all: try (destruct (sx_eq_dec _ old) as [E|NE]; [try reflexivity; try (subst old; contradiction)|]).
  all: try (destruct (Sf _ (or_introl eq_refl)); auto; fail).
  all: try reflexivity.
  - specialize (Sf _ (or_introl eq_refl) NE new). cbn [subs1] in Sf. destruct (sx_eq_dec _ old); [contradiction|exact Sf].
  - destruct (Sf _ (or_introl eq_refl) NE) as [H1 H2]. rewrite H2. destruct old; auto.
    destruct (sx_eq_dec e old); auto. simpl. rewrite H1; auto.
  - f_equal. apply map_ext_in. intros a Ha. rewrite Forall_forall in H. apply H; auto.
    intros x Hx. apply Sf. simpl. apply in_flat_map; eauto.
  - f_equal. apply map_ext_in. intros a Ha. rewrite Forall_forall in H. apply H; auto.
    intros x Hx. apply Sf. simpl. apply in_flat_map; eauto.
  - rewrite IHe1, IHe2; auto; intros x Hx; apply Sf; simpl; apply in_or_app; auto.
Qed.

(** ** a sequence of substitutions *)
Definition repls (P : list (sx * sx)) (x : sx) : sx := fold_left (fun x p => repl (fst p) (snd p) x) P x.
Lemma subs_sequence P : forall e,
  (forall p, In p P -> is_leaf_old (fst p) /\ leaf (snd p)) ->
  (forall P1 o n P2 x, P = P1 ++ (o, n) :: P2 -> In x (leaves e) -> safe o (repls P1 x)) ->
  fold_left (fun e p => subs1 (fst p) (snd p) e) P e = lmap (repls P) e.
Proof.
  induction P as [|[o n] P IH]; intros e L Sf; cbn [fold_left].
  - symmetry. apply lmap_id.
  - cbn [fst snd]. rewrite subs1_lmap.
    2: { apply (L (o, n)); simpl; auto. }
    2: { intros x Hx. apply (Sf [] o n P x); auto. }
    assert (Lf : forall x, In x (leaves e) -> leaf (repl o n x)).
    { intros x Hx. unfold repl. destruct (sx_eq_dec x o); [apply (L (o, n)); simpl; auto|eapply leaves_leaf; eauto]. }
    rewrite IH.
    + rewrite lmap_lmap; auto.
    + intros p Hp. apply L. simpl; auto.
    + intros P1 o' n' P2 x E Hx. rewrite leaves_lmap in Hx by auto. apply in_map_iff in Hx as (y & <- & Hy).
      apply (Sf ((o, n) :: P1) o' n' P2 y); auto. simpl. congruence.
Qed.

(** ** counting derivation variables *)
Lemma sum_map_add {A} (f g h : A -> nat) U : (forall c, In c U -> f c = g c + h c) ->
  list_sum (map f U) = list_sum (map g U) + list_sum (map h U).
Proof.
  induction U as [|c U IH]; intros H; auto. unfold list_sum in *. cbn [map fold_right].
  rewrite (H c), IH by (simpl; auto; intros; apply H; simpl; auto). lia.
Qed.
Lemma sum_indicator c n U : NoDup U -> In c U ->
  list_sum (map (fun c' => if String.eqb c c' then n else 0) U) = n.
Proof.
  induction U as [|d U IH]; intros N H; [contradiction|]. inversion N; subst. unfold list_sum in *. cbn [map fold_right].
  destruct (String.eqb c d) eqn:E.
  - apply String.eqb_eq in E. subst. replace (fold_right Nat.add 0 (map (fun c' => if String.eqb d c' then n else 0) U)) with 0; [lia|].
    clear - H2. induction U as [|e U IH]; simpl; auto. destruct (String.eqb d e) eqn:E.
    + apply String.eqb_eq in E. subst. exfalso. apply H2. simpl; auto.
    + apply IH. intros Hi. apply H2. simpl; auto.
  - destruct H as [->|H]; [rewrite String.eqb_refl in E; discriminate|]. rewrite IH; auto.
Qed.
Definition total (v : list (string * nat)) : nat := fold_right (fun p n => snd p + n) 0 v.
Lemma total_sum U v : NoDup U -> incl (map fst v) U -> total v = list_sum (map (fun c => count c v) U).
Proof.
  intros N. induction v as [|[c n] v IH]; intros I; cbn [total fold_right].
  - clear. induction U; simpl; auto.
  - fold (total v). rewrite IH by (intros x Hx; apply I; simpl; auto).
    rewrite <- (sum_indicator c n U) at 1; auto; [|apply I; simpl; auto].
    symmetry. apply sum_map_add. intros d _. cbn [count fold_right fst snd]. destruct (String.eqb c d); reflexivity.
Qed.
Lemma count_notin c v : ~ In c (map fst v) -> count c v = 0.
Proof.
  induction v as [|[d n] v IH]; simpl; auto. intros H. destruct (String.eqb d c) eqn:E.
  - apply String.eqb_eq in E. tauto.
  - apply IH. tauto.
Qed.
Lemma sub_count_le v w : sub_count v w = true -> forall c, count c v <= count c w.
Proof.
  unfold sub_count. intros H c. destruct (in_dec string_dec c (map fst v)) as [Hi|Hn].
  - apply in_map_iff in Hi as ([d n] & <- & Hi). rewrite forallb_forall in H. specialize (H _ Hi).
    apply Nat.leb_le in H. exact H.
  - rewrite count_notin by auto. lia.
Qed.
Lemma list_sum_le {A} (f g : A -> nat) U : (forall c, In c U -> f c <= g c) ->
  list_sum (map f U) <= list_sum (map g U) /\
  (list_sum (map g U) <= list_sum (map f U) -> forall c, In c U -> f c = g c).
Proof.
  induction U as [|c U IH]; intros H; [split; [auto|intros _ ? []]|]. unfold list_sum in *. cbn [map fold_right].
  destruct IH as [I1 I2]; [intros; apply H; simpl; auto|]. pose proof (H c (or_introl eq_refl)) as Hc. split; [lia|].
  intros L d [<-|Hd]; [lia|]. apply I2; auto. lia.
Qed.
Lemma sub_count_equal v w : sub_count v w = true -> total w <= total v -> forall c, count c v = count c w.
Proof.
  intros H L c. pose proof (sub_count_le v w H) as Le.
  pose (U := nodup string_dec (c :: map fst v ++ map fst w)).
  assert (N : NoDup U) by apply NoDup_nodup.
  assert (Iv : incl (map fst v) U) by (intros x Hx; apply nodup_In; right; apply in_or_app; auto).
  assert (Iw : incl (map fst w) U) by (intros x Hx; apply nodup_In; right; apply in_or_app; auto).
  rewrite (total_sum U v), (total_sum U w) in L by auto.
  apply (proj2 (list_sum_le (fun c => count c v) (fun c => count c w) U (fun c _ => Le c)) L).
  apply nodup_In. simpl; auto.
Qed.

(** ** the leaves of flat expressions *)
Lemma flat_leaf cs e : flat cs e -> forall x, In x (leaves e) -> flat cs x.
Proof.
  induction e using sx_ind'; intros F x Hx; simpl in Hx; try (destruct Hx as [<-|[]]; exact F).
  - inversion F as [| | | |? FL| |]; subst. apply in_flat_map in Hx as (y & Hy & Hx). rewrite Forall_forall in *. eauto.
  - inversion F as [| | | | |? FL|]; subst. apply in_flat_map in Hx as (y & Hy & Hx). rewrite Forall_forall in *. eauto.
  - inversion F; subst. apply in_app_or in Hx as [Hx|Hx]; eauto.
Qed.
Lemma flat_derivative cs e : flat cs e -> forall d, In d (subterms e) -> is_derivative d = true -> In d (leaves e).
Proof.
  induction e using sx_ind'; intros F d Hd D; cbn [subterms] in Hd;
    (destruct Hd as [<-|Hd]; [try discriminate; simpl; auto|]).
  - contradiction.
  - contradiction.
  - inversion F as [| |? ? SA| | | |]; subst. destruct (SA _ Hd) as [_ Z]. congruence.
  - inversion F.
  - inversion F as [| | |? ? ? SA| | |]; subst. apply in_app_or in Hd as [Hd|Hd].
    + destruct Hd as [<-|Hd]; [discriminate|]. destruct (SA _ Hd) as [_ Z]. congruence.
    + apply in_map_iff in Hd as (? & <- & _). discriminate.
  - inversion F.
  - inversion F as [| | | |? FL| |]; subst. apply in_flat_map in Hd as (y & Hy & Hd). apply in_flat_map. exists y.
    rewrite Forall_forall in *. split; auto.
  - inversion F as [| | | | |? FL|]; subst. apply in_flat_map in Hd as (y & Hy & Hd). apply in_flat_map. exists y.
    rewrite Forall_forall in *. split; auto.
  - inversion F; subst. simpl. apply in_or_app. apply in_app_or in Hd as [Hd|Hd]; auto.
  - inversion F.
Qed.
Lemma leaves_subterms e : incl (leaves e) (subterms e).
Proof.
  induction e using sx_ind'; intros x Hx; cbn [leaves] in Hx; try (destruct Hx as [<-|[]]; left; reflexivity).
  - right. apply in_flat_map in Hx as (y & Hy & Hx). apply in_flat_map. exists y. rewrite Forall_forall in H. split; auto. apply H; auto.
  - right. apply in_flat_map in Hx as (y & Hy & Hx). apply in_flat_map. exists y. rewrite Forall_forall in H. split; auto. apply H; auto.
  - right. apply in_app_or in Hx as [Hx|Hx]; apply in_or_app; [left; apply IHe1|right; apply IHe2]; auto.
Qed.

(** ** sequences of replacements *)
Lemma repls_miss P x : ~ In x (map fst P) -> repls P x = x.
Proof.
  unfold repls. revert x. induction P as [|[o n] P IH]; intros x N; cbn [fold_left]; auto.
  cbn [fst snd]. unfold repl. destruct (sx_eq_dec x o) as [->|]; [exfalso; apply N; simpl; auto|].
  apply IH. intros H. apply N. simpl; auto.
Qed.
Lemma repls_hit P x : In x (map fst P) -> (forall n, In n (map snd P) -> ~ In n (map fst P)) ->
  In (x, repls P x) P.
Proof.
  unfold repls. induction P as [|[o n] P IH]; intros H D; [contradiction|]. cbn [fold_left fst snd].
  unfold repl at 2. destruct (sx_eq_dec x o) as [->|N].
  - left. f_equal. symmetry. apply (repls_miss P n). intros Hi. apply (D n); simpl; auto.
  - right. apply IH; [destruct H as [H|H]; [simpl in H; congruence|auto]|].
    intros m Hm Hi. apply (D m); simpl; auto.
Qed.

Lemma sorted_app {A} (R : A -> A -> Prop) a b : StronglySorted R a -> StronglySorted R b ->
  (forall x y, In x a -> In y b -> R x y) -> StronglySorted R (a ++ b).
Proof.
  induction a as [|x a IH]; simpl; auto. intros Ha Hb H. inversion Ha; subst. constructor.
  - apply IH; auto.
  - apply Forall_app. split; auto. apply Forall_forall. auto.
Qed.
Lemma sorted_split {A} (R : A -> A -> Prop) l P1 x P2 y : StronglySorted R l -> l = P1 ++ x :: P2 ->
  In y l -> y <> x -> ~ R x y -> In y P1.
Proof.
  intros So -> Hy N NR. apply in_app_or in Hy as [Hy|[Hy|Hy]]; auto; [congruence|].
  exfalso. apply NR. clear - So Hy. induction P1 as [|a P1 IH]; inversion So; subst; auto.
  rewrite Forall_forall in *. auto.
Qed.
Lemma app_split {A} (a b P1 : list A) y P2 : a ++ b = P1 ++ y :: P2 -> ~ In y a -> incl a P1 /\ exists b1, b = b1 ++ y :: P2.
Proof.
  revert P1. induction a as [|x a IH]; intros P1 E N; [split; [intros ? []|exists P1; exact E]|].
  destruct P1 as [|z P1]; simpl in E; injection E as -> E.
  - exfalso. apply N. simpl; auto.
  - destruct (IH P1 E) as [I1 I2]; [intros Hi; apply N; simpl; auto|]. split; auto.
    intros w [<-|Hw]; simpl; auto.
Qed.
Lemma app_split_in {A} (a b P1 : list A) y P2 : a ++ b = P1 ++ y :: P2 -> ~ In y b -> exists a2, a = P1 ++ y :: a2.
Proof.
  revert P1. induction a as [|x a IH]; intros P1 E N; simpl in E.
  - subst b. exfalso. apply N. apply in_or_app. simpl; auto.
  - destruct P1 as [|z P1]; simpl in E; injection E as -> E; [exists a; reflexivity|].
    destruct (IH P1 E N) as [a2 ->]. exists a2. reflexivity.
Qed.

(** ** the pseudo-algebraic system *)
Definition code_leaf (x : sx) : sx :=
  match x with
  | SDer _ _ => SSym FunSym (dname x)
  | SApp _ _ | SEx _ => SSym FunSym (function_keyvar x)
  | SSym _ _ => SSym ScalSym (constant_keyvar x)
  | _ => x
  end.

Section Translate.
  Variable enum : list sx -> list sx.
  Hypothesis E : forall l, Permutation (enum l) l.
  Variables (eqs : list equation) (S : pdes).
  Hypothesis B : pde_system enum eqs = Ok S.
  Hypothesis T : translatable S eqs.

  Lemma in_derivatives d : In d (s_derivatives S) <-> is_derivative d = true /\ exists q, In q eqs /\ In d (subterms (snd q)).
  Proof.
    apply pde_system_inv in B as (_ & _ & _ & _ & _ & _ & _ & _ & D & _). rewrite D. unfold get_derivatives.
    rewrite in_union_all. split.
    - intros (m & Hm & Hd). apply in_map_iff in Hm as (q & <- & Hq). apply in_atoms in Hd. split; [tauto|]. exists q. tauto.
    - intros (H & q & Hq & Hd). eexists. split; [apply in_map; exact Hq|]. apply in_atoms. auto.
  Qed.
  Lemma nice_derivative d : In d (s_derivatives S) -> exists f l v, d = SDer (SApp f l) v /\ simple_args l /\ v <> [] /\
    NoDup (map fst v) /\ ~ In "t" (map fst v) /\ (forall p, In p v -> snd p <> 0).
  Proof.
    intros H. apply in_derivatives in H as (D & q & Hq & Hd). pose proof (t_rhs _ _ T _ Hq) as F.
    pose proof (flat_leaf _ _ F _ (flat_derivative _ _ F _ Hd D)) as Fd.
    destruct d; try discriminate. inversion Fd; subst. do 3 eexists. split; [reflexivity|]. auto 10.
  Qed.
  Lemma max_order d : In d (s_derivatives S) -> 1 <= derivative_count d <= s_max_order S.
  Proof.
    intros H. split.
    - destruct (nice_derivative d H) as (f & l & v & -> & _ & V & _ & _ & P). simpl. destruct v as [|[c n] v]; [contradiction|].
      pose proof (P (c, n) (or_introl eq_refl)) as P0. simpl in *. lia.
    - apply pde_system_inv in B as (_ & _ & _ & _ & _ & _ & _ & _ & _ & M). rewrite M.
      clear - H. induction (s_derivatives S) as [|x l IH]; [contradiction|]. simpl. destruct H as [->|H]; [lia|].
      specialize (IH H). lia.
  Qed.

  Definition Pd : list (sx * sx) :=
    flat_map (fun o => map (fun d => (d, SSym FunSym (dname d)))
                           (filter (fun d => Nat.eqb (derivative_count d) o) (enum (s_derivatives S))))
             (rev (seq 1 (s_max_order S))).
  Definition Pf : list (sx * sx) := map (fun f => (f, SSym FunSym (function_keyvar f))) (enum (s_functions S)).
  Definition Pc : list (sx * sx) := map (fun c => (c, SSym ScalSym (constant_keyvar c))) (enum (s_constants S)).

  Lemma partial_orders_nice f l v : In (SDer (SApp f l) v) (s_derivatives S) ->
    partial_orders v = Ok v /\ total_order v = Ok (derivative_count (SDer (SApp f l) v)).
  Proof.
    intros H. destruct (nice_derivative _ H) as (f' & l' & v' & Eq & _ & V & N & _). injection Eq as <- <- <-.
    split; [|apply total_order_count; auto].
    unfold partial_orders. destruct v; [contradiction|]. f_equal. apply (partial_orders_nodup _ N []). intros k _ [].
  Qed.
  Lemma derivative_order_nice d : In d (s_derivatives S) -> derivative_order d = Ok (derivative_count d).
  Proof.
    intros H. destruct (nice_derivative _ H) as (f' & l' & v' & -> & _). simpl. apply (partial_orders_nice _ _ _ H).
  Qed.
  Lemma derivative_keyvar_nice d : In d (s_derivatives S) -> derivative_keyvar d = Ok (dname d).
  Proof.
    intros H. destruct (nice_derivative _ H) as (f' & l' & v' & -> & _). simpl.
    rewrite (proj1 (partial_orders_nice _ _ _ H)). reflexivity.
  Qed.

  Lemma subs_derivatives_seq rhs : subs_derivatives enum S rhs = Ok (fold_left (fun e p => subs1 (fst p) (snd p) e) Pd rhs).
  Proof.
    unfold subs_derivatives, Pd. generalize (rev (seq 1 (s_max_order S))). intros os. revert rhs.
    assert (G : forall o l rhs, incl l (s_derivatives S) ->
      foldM (fun rhs d => o' <- derivative_order d ;;
                      if Nat.eqb o' o then k <- derivative_keyvar d ;; Ok (subs1 d (SSym FunSym k) rhs) else Ok rhs) rhs l =
      Ok (fold_left (fun e p => subs1 (fst p) (snd p) e)
            (map (fun d => (d, SSym FunSym (dname d))) (filter (fun d => Nat.eqb (derivative_count d) o) l)) rhs)).
    { intros o. induction l as [|d l IH]; intros rhs I; cbn [foldM filter]; auto.
      assert (Hd : In d (s_derivatives S)) by (apply I; simpl; auto).
      rewrite derivative_order_nice by auto. cbn [bind]. destruct (Nat.eqb (derivative_count d) o).
      - rewrite derivative_keyvar_nice by auto. cbn [bind map fold_left fst snd]. apply IH. intros x Hx. apply I. simpl; auto.
      - cbn [bind]. apply IH. intros x Hx. apply I. simpl; auto. }
    induction os as [|o os IH]; intros rhs; cbn [foldM flat_map]; auto.
    rewrite G; [cbn [bind]; rewrite fold_left_app; apply IH|].
    intros x Hx. eapply Permutation_in; [apply E|exact Hx].
  Qed.
  Lemma subs_functions_seq rhs : subs_functions enum S rhs = fold_left (fun e p => subs1 (fst p) (snd p) e) Pf rhs.
  Proof. unfold subs_functions, Pf. revert rhs. induction (enum (s_functions S)) as [|f l IH]; intros; simpl; auto. Qed.
  Lemma subs_constants_seq rhs : subs_constants enum S rhs = fold_left (fun e p => subs1 (fst p) (snd p) e) Pc rhs.
  Proof. unfold subs_constants, Pc. revert rhs. induction (enum (s_constants S)) as [|f l IH]; intros; simpl; auto. Qed.

  Lemma in_Pd o n : In (o, n) Pd <-> In o (s_derivatives S) /\ n = SSym FunSym (dname o).
  Proof.
    unfold Pd. rewrite in_flat_map. split.
    - intros (k & _ & H). apply in_map_iff in H as (d & Eq & H). injection Eq as <- <-. apply filter_In in H as [H _].
      split; auto. eapply Permutation_in; [apply E|exact H].
    - intros [H ->]. exists (derivative_count o). split.
      + apply -> in_rev. apply in_seq. pose proof (max_order o H). lia.
      + apply in_map_iff. exists o. split; auto. apply filter_In. split; [|apply Nat.eqb_refl].
        eapply Permutation_in; [apply Permutation_sym, E|exact H].
  Qed.
  Lemma in_Pf o n : In (o, n) Pf <-> In o (s_functions S) /\ n = SSym FunSym (function_keyvar o).
  Proof.
    unfold Pf. rewrite in_map_iff. split.
    - intros (d & Eq & H). injection Eq as <- <-. split; auto. eapply Permutation_in; [apply E|exact H].
    - intros [H ->]. exists o. split; auto. eapply Permutation_in; [apply Permutation_sym, E|exact H].
  Qed.
  Lemma in_Pc o n : In (o, n) Pc <-> In o (s_constants S) /\ n = SSym ScalSym (constant_keyvar o).
  Proof.
    unfold Pc. rewrite in_map_iff. split.
    - intros (d & Eq & H). injection Eq as <- <-. split; auto. eapply Permutation_in; [apply E|exact H].
    - intros [H ->]. exists o. split; auto. eapply Permutation_in; [apply Permutation_sym, E|exact H].
  Qed.
  Lemma function_shape f : In f (s_functions S) -> is_function f = true.
  Proof. intros H. apply is_function_iff. apply (proj1 (proj1 (functions_partition enum E eqs S B f))) in H. tauto. Qed.

  Lemma Pd_sorted : StronglySorted (fun p q => derivative_count (fst q) <= derivative_count (fst p)) Pd.
  Proof.
    unfold Pd. assert (G : forall n, StronglySorted (fun p q => derivative_count (fst q) <= derivative_count (fst p))
      (flat_map (fun o => map (fun d => (d, SSym FunSym (dname d)))
         (filter (fun d => Nat.eqb (derivative_count d) o) (enum (s_derivatives S)))) (rev (seq 1 n)))); [|apply G].
    assert (K : forall o x, In x (map (fun d => (d, SSym FunSym (dname d)))
         (filter (fun d => Nat.eqb (derivative_count d) o) (enum (s_derivatives S)))) -> derivative_count (fst x) = o).
    { intros o x H. apply in_map_iff in H as (d & <- & H). apply filter_In in H as [_ H]. apply Nat.eqb_eq in H. exact H. }
    induction n as [|n IH]; [constructor|]. rewrite seq_S, rev_app_distr. cbn [rev app flat_map].
    apply sorted_app; auto.
    - specialize (K (1 + n)). induction (map _ (filter _ (enum (s_derivatives S)))) as [|x l IHl]; constructor.
      + apply IHl. intros y Hy. apply K. simpl; auto.
      + apply Forall_forall. intros y Hy. rewrite (K x), (K y); simpl; auto.
    - intros x y Hx Hy. apply K in Hx. apply in_flat_map in Hy as (o & Ho & Hy). apply K in Hy.
      apply in_rev in Ho. apply in_seq in Ho. lia.
  Qed.

  Definition P := Pd ++ Pf ++ Pc.

  Lemma inert n : In n (map snd P) -> ~ In n (map fst P).
  Proof.
    intros Hn Ho. apply in_map_iff in Hn as ([o' n'] & En & Hn). cbn [snd] in En. subst n'.
    apply in_map_iff in Ho as ([o m] & Eo & Ho). cbn [fst] in Eo. subst o.
    assert (Sh : exists k s, n = SSym k s /\ k <> Plain).
    { unfold P in Hn. rewrite !in_app_iff, in_Pd, in_Pf, in_Pc in Hn. destruct Hn as [[_ ->]|[[_ ->]|[_ ->]]]; repeat eexists; discriminate. }
    destruct Sh as (k & s & -> & K). unfold P in Ho. rewrite !in_app_iff, in_Pd, in_Pf, in_Pc in Ho.
    destruct Ho as [[H _]|[[H _]|[H _]]].
    - apply nice_derivative in H as (? & ? & ? & H & _). discriminate.
    - apply function_shape in H. discriminate.
    - apply (t_plain _ _ T) in H as (s' & H). injection H as -> _. contradiction.
  Qed.
  Lemma news o n : In (o, n) P -> n = code_leaf o.
  Proof.
    unfold P. rewrite !in_app_iff, in_Pd, in_Pf, in_Pc. intros [[H ->]|[[H ->]|[H ->]]].
    - apply nice_derivative in H as (? & ? & ? & -> & _). reflexivity.
    - apply function_shape in H. destruct o; try discriminate; reflexivity.
    - apply (t_plain _ _ T) in H as (s' & ->). reflexivity.
  Qed.

  Lemma leaf_covered q x : In q eqs -> In x (leaves (snd q)) -> (exists r, x = SNum r) \/ In x (map fst P).
  Proof.
    intros Hq Hx. pose proof (flat_leaf _ _ (t_rhs _ _ T _ Hq) _ Hx) as F. pose proof (leaves_subterms _ _ Hx) as Sx.
    assert (L := leaves_leaf _ _ Hx).
    inversion F; subst; try contradiction; eauto; right; apply in_map_iff.
    - exists (SSym k s, SSym ScalSym (constant_keyvar (SSym k s))). split; auto. unfold P. rewrite !in_app_iff, in_Pc. auto.
    - exists (SApp f l, SSym FunSym (function_keyvar (SApp f l))). split; auto. unfold P. rewrite !in_app_iff, in_Pf.
      right. left. split; auto. apply (proj2 (proj1 (functions_partition enum E eqs S B _))). split; [left; eauto|].
      destruct q as [a b]. exists a, b. auto.
    - exists (SDer (SApp f l) v, SSym FunSym (dname (SDer (SApp f l) v))). split; auto. unfold P. rewrite !in_app_iff, in_Pd.
      left. split; auto. apply in_derivatives. split; auto. eauto.
  Qed.

  Lemma safe_symbol o k s : safe o (SSym k s).
  Proof. intros _. exact Logic.I. Qed.

  Lemma simple_id f l o new : simple_args l -> (is_function o = true \/ is_derivative o = true) -> o <> SApp f l ->
    subs1 o new (SApp f l) = SApp f l.
  Proof.
    intros SA O N. apply subs1_id.
    - intros [H|H]; [congruence|]. apply SA in H as [H1 H2]. destruct O; congruence.
    - intros d [<-|H]; auto. apply SA in H. tauto.
  Qed.

  Lemma sequence_safe q P1 o n P2 x : In q eqs -> P = P1 ++ (o, n) :: P2 -> In x (leaves (snd q)) -> safe o (repls P1 x).
  Proof.
    intros Hq HP Hx.
    destruct (in_dec sx_eq_dec x (map fst P1)) as [Hi|Hn].
    { assert (D : forall m, In m (map snd P1) -> ~ In m (map fst P1)).
      { intros m Hm Hm'. apply (inert m); rewrite HP, map_app; apply in_or_app; auto. }
      pose proof (repls_hit P1 x Hi D) as H. assert (H' : In (x, repls P1 x) P) by (rewrite HP; apply in_or_app; auto).
      assert (Sh : exists k s, repls P1 x = SSym k s).
      { unfold P in H'. rewrite !in_app_iff, in_Pd, in_Pf, in_Pc in H'. destruct H' as [[_ ->]|[[_ ->]|[_ ->]]]; eauto. }
      destruct Sh as (k & s & ->). apply safe_symbol. }
    rewrite (repls_miss P1 x Hn).
    pose proof (flat_leaf _ _ (t_rhs _ _ T _ Hq) _ Hx) as F. pose proof (leaves_subterms _ _ Hx) as Sx.
    assert (L := leaves_leaf _ _ Hx).
    assert (Ho : In (o, n) P) by (rewrite HP; apply in_or_app; simpl; auto).
    inversion F; subst; try contradiction; try (intros _; exact Logic.I); clear F L.
    - (* a function *)
      intros Ne new. assert (Fx : In (SApp f l) (s_functions S)).
      { apply (proj2 (proj1 (functions_partition enum E eqs S B _))). split; [left; eauto|]. destruct q as [a b]. exists a, b. auto. }
      assert (Px : In (SApp f l, SSym FunSym (function_keyvar (SApp f l))) Pf) by (apply in_Pf; auto).
      apply simple_id; auto. unfold P in Ho. rewrite !in_app_iff, in_Pd, in_Pf, in_Pc in Ho.
      destruct Ho as [[H1 _]|[[H1 _]|[H1 _]]].
      + right. apply in_derivatives in H1. tauto.
      + left. apply function_shape; auto.
      + exfalso. apply Hn. unfold P in HP. rewrite app_assoc in HP. apply app_split in HP as [I1 _].
        * apply in_map_iff. eexists. split; [|apply I1; apply in_or_app; right; exact Px]. reflexivity.
        * apply (t_plain _ _ T) in H1 as (s & ->). rewrite in_app_iff, in_Pd, in_Pf. intros [[H1 _]|[H1 _]].
          -- apply in_derivatives in H1 as [H1 _]. discriminate.
          -- apply function_shape in H1. discriminate.
    - (* a derivative *)
      intros Ne. assert (Dx : In (SDer (SApp f l) v) (s_derivatives S)) by (apply in_derivatives; split; auto; eauto).
      assert (Px : In (SDer (SApp f l) v, SSym FunSym (dname (SDer (SApp f l) v))) Pd) by (apply in_Pd; auto).
      assert (Od : In o (s_derivatives S)).
      { unfold P in Ho. rewrite !in_app_iff, in_Pd, in_Pf, in_Pc in Ho. destruct Ho as [[K1 _]|Ho]; auto.
        exfalso. apply Hn. unfold P in HP. apply app_split in HP as [I1 _].
        - apply in_map_iff. eexists. split; [|apply I1; exact Px]. reflexivity.
        - rewrite in_Pd. intros [K1 _]. apply in_derivatives in K1 as [K1 _]. destruct Ho as [[K2 _]|[K2 _]].
          + apply function_shape in K2. destruct o; discriminate.
          + apply (t_plain _ _ T) in K2 as (s & ->). discriminate. }
      destruct (nice_derivative o Od) as (f' & l' & v' & -> & SA' & V' & N' & _).
      split.
      + intros Eg. injection Eg as <- <-. destruct (sub_count v' v) eqn:Sc; auto. exfalso.
        assert (HPd : exists a2, Pd = P1 ++ (SDer (SApp f l) v', n) :: a2).
        { unfold P in HP. apply app_split_in in HP; auto. rewrite in_app_iff, in_Pf, in_Pc. intros [[K1 _]|[K1 _]].
          - apply function_shape in K1. discriminate.
          - apply (t_plain _ _ T) in K1 as (s & K1). discriminate. }
        destruct HPd as [a2 HPd]. apply Hn. apply in_map_iff. eexists. split; [|eapply sorted_split; [apply Pd_sorted|exact HPd|exact Px| |]].
        * reflexivity.
        * intros Eq. injection Eq as <- _. congruence.
        * intros Le. cbn [fst derivative_count] in Le. fold (total v) (total v') in Le.
          pose proof (sub_count_equal v' v Sc Le) as C. apply Ne. f_equal. symmetry.
          apply (t_canonical _ _ T _ _ _ Od Dx C).
      + intros new. apply simple_id; auto. discriminate.
  Qed.

  Lemma pseudo_rhs q : In q eqs -> exists d,
    subs_derivatives enum S (snd q) = Ok d /\
    subs_constants enum S (subs_functions enum S d) = lmap code_leaf (snd q).
  Proof.
    intros Hq. eexists. split; [apply subs_derivatives_seq|]. rewrite subs_functions_seq, subs_constants_seq.
    rewrite <- !fold_left_app. fold P.
    rewrite subs_sequence.
    - apply lmap_ext. intros x Hx. destruct (leaf_covered q x Hq Hx) as [[r ->]|Hi].
      + apply repls_miss. intros Hi. apply in_map_iff in Hi as ([o n] & Eo & Hi). cbn [fst] in Eo. subst o.
        unfold P in Hi. rewrite !in_app_iff, in_Pd, in_Pf, in_Pc in Hi. destruct Hi as [[H1 _]|[[H1 _]|[H1 _]]].
        * apply in_derivatives in H1 as [H1 _]. discriminate.
        * apply function_shape in H1. discriminate.
        * apply (t_plain _ _ T) in H1 as (s & H1). discriminate.
      + pose proof (repls_hit P x Hi inert) as H. apply news in H. exact H.
    - intros [o n] Ho. cbn [fst snd]. unfold P in Ho. rewrite !in_app_iff, in_Pd, in_Pf, in_Pc in Ho.
      destruct Ho as [[H1 ->]|[[H1 ->]|[H1 ->]]]; (split; [|exact Logic.I]).
      * apply in_derivatives in H1 as [H1 _]. destruct o; try discriminate; exact Logic.I.
      * apply function_shape in H1. destruct o; try discriminate; exact Logic.I.
      * apply (t_plain _ _ T) in H1 as (s & ->). exact Logic.I.
    - intros P1 o n P2 x HP Hx. eapply sequence_safe; eauto.
  Qed.
End Translate.
