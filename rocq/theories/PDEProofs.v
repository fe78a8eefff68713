(** Proofs about PDESystem. *)
From Coq Require Import List Arith Bool String QArith Permutation Lia.
From Verif Require Import PyBase PyBaseFacts SymModel RandomProofs PDEModel PDESpec.
Import ListNotations.
Close Scope Q_scope.
Open Scope nat_scope.
Open Scope string_scope.
Open Scope list_scope.
Open Scope py_scope.

Lemma in_union_all x l : In x (union_all l) <-> exists m, In m l /\ In x m.
Proof. unfold union_all. rewrite nodup_In, in_concat. split; intros (m & H); exists m; tauto. Qed.
Lemma in_difference x a b : In x (difference a b) <-> In x a /\ ~ In x b.
Proof.
  unfold difference. rewrite filter_In. rewrite negb_true_iff, smem_false. tauto.
Qed.
Lemma in_eq_atoms p x q : In x (eq_atoms p q) <-> p x = true /\ (In x (subterms (fst q)) \/ In x (subterms (snd q))).
Proof. unfold eq_atoms. rewrite nodup_In, filter_In, in_app_iff. tauto. Qed.
Lemma in_atoms p x e : In x (atoms p e) <-> p x = true /\ In x (subterms e).
Proof. unfold atoms. rewrite nodup_In, filter_In. tauto. Qed.

Lemma is_function_iff x : is_function x = true <-> a_function x.
Proof.
  unfold a_function. destruct x; simpl; split; intros H; try discriminate; auto;
    try (left; eauto; fail); try (right; eauto; fail);
    try (destruct H as [(?f & ?l & H)|(?a & H)]; discriminate).
Qed.
Lemma is_symbol_iff x : is_symbol x = true <-> a_symbol x.
Proof. unfold a_symbol. destruct x; simpl; split; intros H; try discriminate; eauto; destruct H as (k' & s' & H); discriminate. Qed.
Lemma is_trainable_iff x : is_trainable x = true <-> a_trainable x.
Proof.
  unfold a_trainable. destruct x as [|k s| | | | | | | |]; simpl; split; intros H; try discriminate;
    try (destruct H as (s' & H); discriminate).
  - destruct k; try discriminate; eauto.
  - destruct H as (s' & H). injection H as -> ->. reflexivity.
Qed.
Lemma is_derivative_iff x : is_derivative x = true <-> exists f v, x = SDer f v.
Proof. destruct x; simpl; split; intros H; try discriminate; eauto; destruct H as (k' & s' & H); discriminate. Qed.

Lemma in_functions x eqs : In x (get_functions eqs) <-> a_function x /\ occurs x eqs.
Proof.
  unfold get_functions, occurs. rewrite in_union_all. split.
  - intros (m & Hm & Hx). apply in_map_iff in Hm as ([l r] & <- & Hq). apply in_eq_atoms in Hx as [H1 H2].
    split; [apply is_function_iff; auto|]. exists l, r. auto.
  - intros (H & l & r & Hq & Hx). exists (eq_atoms is_function (l, r)). split; [apply in_map; auto|].
    apply in_eq_atoms. split; [apply is_function_iff; auto|auto].
Qed.

Section Enum.
  Variable enum : list sx -> list sx.
  Hypothesis E : forall l, Permutation (enum l) l.

  Lemma in_enum x l : In x (enum l) <-> In x l.
  Proof. split; apply Permutation_in; [apply E|apply Permutation_sym, E]. Qed.

  Lemma foldM_prog l : forall acc p,
    foldM (fun acc d => c <- first_variable d ;;
                        if String.eqb c "t" then match d with SDer f _ => Ok (acc ++ [f]) | _ => Ok acc end
                        else Ok acc) acc l = Ok p ->
    forall f, In f p <-> In f acc \/ exists n v, In (SDer f (("t", n) :: v)) l.
  Proof.
    induction l as [|d l IH]; intros acc p; cbn [foldM].
    - injection 1 as <-. intros f. split; auto. intros [H|(n & v & [])]; auto.
    - destruct (first_variable d) as [c|] eqn:F; [|discriminate]. cbn [bind].
      destruct d as [| | | |g w| | | | |]; try discriminate. destruct w as [|[c' n'] w]; [discriminate|].
      injection F as <-. destruct (String.eqb c' "t") eqn:Ec; intros H f; rewrite (IH _ _ H f).
      + apply String.eqb_eq in Ec. subst c'. rewrite in_app_iff. split.
        * intros [[H1|[H1|[]]]|(n & v & H1)]; auto; right; [subst; exists n', w; simpl; auto|exists n, v; simpl; auto].
        * intros [H1|(n & v & [H1|H1])]; auto; [injection H1 as -> _ _; simpl; auto|right; eauto].
      + apply String.eqb_neq in Ec. split.
        * intros [H1|(n & v & H1)]; auto. right. exists n, v. simpl; auto.
        * intros [H1|(n & v & [H1|H1])]; auto; [injection H1 as _ -> _; contradiction|right; eauto].
  Qed.

  Lemma foldM_prog_ok l : (forall f v, In (SDer f v) l -> v <> []) -> (forall d, In d l -> is_derivative d = true) ->
    forall acc, exists p,
    foldM (fun acc d => c <- first_variable d ;;
                        if String.eqb c "t" then match d with SDer f _ => Ok (acc ++ [f]) | _ => Ok acc end
                        else Ok acc) acc l = Ok p.
  Proof.
    induction l as [|d l IH]; intros H D acc; cbn [foldM]; [eauto|].
    assert (Dd : is_derivative d = true) by (apply D; simpl; auto).
    destruct d as [| | | |g w| | | | |]; try discriminate.
    destruct w as [|[c n] w]; [destruct (H g []); simpl; auto|]. cbn [first_variable bind].
    destruct (String.eqb c "t"); cbn [bind]; apply IH; intros; try (eapply H; simpl; eauto; fail); apply D; simpl; auto.
  Qed.

  Lemma in_prognostic eqs p : get_prognostic enum eqs = Ok p ->
    forall f, In f p <-> time_differentiated f eqs.
  Proof.
    unfold get_prognostic. destruct (mapM (prognostic_of enum) eqs) as [ls|] eqn:M; [|discriminate].
    injection 1 as <-. intros f. apply mapM_Ok_Forall2 in M.
    unfold time_differentiated, occurs. rewrite in_concat. split.
    - intros (m & Hm & Hf).
      assert (G : exists q, In q eqs /\ prognostic_of enum q = Ok m).
      { clear Hf. induction M as [|q m' eqs ls Hq _ IH]; [contradiction|].
        destruct Hm as [->|Hm]; [exists q; simpl; auto|]. destruct (IH Hm) as (q' & H1 & H2). exists q'; simpl; auto. }
      destruct G as ([l r] & Hq & Hp). unfold prognostic_of in Hp.
      rewrite (foldM_prog _ _ _ Hp f) in Hf. destruct Hf as [[]|(n & v & Hd)].
      apply (proj1 (in_enum _ _)) in Hd. apply in_eq_atoms in Hd as [_ Hd]. exists n, v, l, r. auto.
    - intros (n & v & l & r & Hq & Ho).
      assert (G : exists m, In m ls /\ prognostic_of enum (l, r) = Ok m).
      { clear Ho. induction M as [|q m' eqs ls Hq' _ IH]; [contradiction|].
        destruct Hq as [->|Hq]; [exists m'; simpl; auto|]. destruct (IH Hq) as (q' & H1 & H2). exists q'; simpl; auto. }
      destruct G as (m & Hm & Hp). exists m. split; auto. unfold prognostic_of in Hp.
      apply (foldM_prog _ _ _ Hp f). right. exists n, v. apply in_enum. apply in_eq_atoms. split; auto.
  Qed.

  Lemma prognostic_ok eqs : proper eqs -> exists p, get_prognostic enum eqs = Ok p.
  Proof.
    intros P. unfold get_prognostic.
    assert (G : exists ls, mapM (prognostic_of enum) eqs = Ok ls); [|destruct G as [ls ->]; cbn [bind]; eauto].
    assert (H : forall q, In q eqs -> exists m, prognostic_of enum q = Ok m).
    { intros [l r] Hq. unfold prognostic_of. apply foldM_prog_ok.
      - intros f v Hd. apply (proj1 (in_enum _ _)) in Hd. apply in_eq_atoms in Hd as [_ Hd]. apply (P f v).
        exists l, r. auto.
      - intros d Hd. apply (proj1 (in_enum _ _)) in Hd. apply in_eq_atoms in Hd as [Hd _]. exact Hd. }
    clear P. induction eqs as [|q eqs IH]; cbn [mapM]; [eauto|].
    destruct (H q (or_introl eq_refl)) as [m ->]. cbn [bind].
    destruct IH as [ls ->]; [intros; apply H; simpl; auto|]. cbn [bind]. eauto.
  Qed.

  Lemma foldM_const l : forall acc p,
    foldM (fun acc f => a <- first_arg f ;; Ok (if smem time (atoms is_symbol a) then acc else acc ++ [f])) acc l = Ok p ->
    forall f, In f p <-> In f acc \/ (In f l /\ exists a r, args f = a :: r /\ ~ In time (subterms a)).
  Proof.
    induction l as [|g l IH]; intros acc p; cbn [foldM].
    - injection 1 as <-. intros f. split; auto. intros [H|[[] _]]; auto.
    - unfold first_arg at 1. destruct (args g) as [|a r] eqn:A; [discriminate|]. cbn [bind].
      destruct (smem time (atoms is_symbol a)) eqn:S; intros H f; rewrite (IH _ _ H f).
      + apply smem_true, in_atoms in S as [_ S]. split.
        * intros [H1|[H1 H2]]; auto. right. split; [right; exact H1|exact H2].
        * intros [H1|[[->|H1] H2]]; auto. destruct H2 as (a' & r' & H2 & H3). rewrite A in H2. injection H2 as -> ->.
          contradiction.
      + apply smem_false in S. rewrite in_app_iff. split.
        * intros [[H1|[->|[]]]|[H1 H2]]; auto; right; split; try (left; reflexivity); try (right; exact H1); auto.
          exists a, r. split; auto. intros Hi. apply S, in_atoms. auto.
        * intros [H1|[[->|H1] H2]]; auto. left. right. simpl; auto.
  Qed.
  Lemma foldM_const_ok l : (forall f, In f l -> args f <> []) -> forall acc, exists p,
    foldM (fun acc f => a <- first_arg f ;; Ok (if smem time (atoms is_symbol a) then acc else acc ++ [f])) acc l = Ok p.
  Proof.
    induction l as [|g l IH]; intros H acc; cbn [foldM]; [eauto|].
    unfold first_arg at 1. destruct (args g) as [|a r] eqn:A; [destruct (H g); simpl; auto|]. cbn [bind].
    apply IH. intros; apply H; simpl; auto.
  Qed.
  Lemma foldM_const_err l : (exists f, In f l /\ args f = []) -> forall acc,
    foldM (fun acc f => a <- first_arg f ;; Ok (if smem time (atoms is_symbol a) then acc else acc ++ [f])) acc l = Err IndexError.
  Proof.
    induction l as [|g l IH]; intros (f & Hf & Af) acc; [contradiction|]. cbn [foldM].
    unfold first_arg at 1. destruct (args g) as [|a r] eqn:A; [reflexivity|]. cbn [bind].
    destruct Hf as [->|Hf]; [congruence|]. apply IH. eauto.
  Qed.

  Lemma in_constant fs ps c : get_constant enum fs ps = Ok c ->
    forall f, In f c <-> In f fs /\ ~ In f ps /\ exists a r, args f = a :: r /\ ~ In time (subterms a).
  Proof.
    intros H f. unfold get_constant in H. rewrite (foldM_const _ _ _ H f), in_enum, in_difference. simpl. tauto.
  Qed.

  Lemma in_exogenous fs ps c : forall f, In f (get_exogenous fs ps c) <-> In f fs /\ ~ In f ps /\ ~ In f c.
  Proof. intros f. unfold get_exogenous. rewrite !in_difference. tauto. Qed.

  (** ** the whole system *)
  Lemma pde_system_inv eqs S : pde_system enum eqs = Ok S ->
    s_functions S = get_functions eqs /\ get_prognostic enum eqs = Ok (s_prognostic S) /\
    get_constant enum (s_functions S) (s_prognostic S) = Ok (s_constant S) /\
    s_exogenous S = get_exogenous (s_functions S) (s_prognostic S) (s_constant S) /\
    s_coordinates S = get_coordinates (s_prognostic S) /\ s_coordinates S = time :: s_spatial S /\
    s_trainable S = get_trainable eqs /\ s_constants S = get_constants eqs (s_coordinates S) /\
    s_derivatives S = get_derivatives eqs /\
    s_max_order S = fold_right Nat.max 0 (map derivative_count (s_derivatives S)).
  Proof.
    unfold pde_system. destruct (get_prognostic enum eqs) as [p|]; [|discriminate]. cbn [bind].
    destruct (get_constant enum (get_functions eqs) p) as [c|] eqn:C; [|discriminate]. cbn [bind].
    destruct (get_spatial (get_coordinates p)) as [s|] eqn:G; [|discriminate]. cbn [bind].
    injection 1 as <-.
    cbn [s_functions s_prognostic s_constant s_exogenous s_coordinates s_spatial s_trainable s_constants s_derivatives s_max_order].
    unfold get_spatial in G. destruct (get_coordinates p) as [|x r]; [discriminate|].
    destruct (sx_eq_dec x time); [|discriminate]. injection G as <-. subst x.
    repeat match goal with |- _ /\ _ => split end; auto.
  Qed.

  Lemma functions_partition eqs S : pde_system enum eqs = Ok S -> forall f,
    (In f (s_functions S) <-> a_function f /\ occurs f eqs) /\
    (In f (s_functions S) ->
       exactly_one (In f (s_prognostic S)) (In f (s_constant S)) (In f (s_exogenous S))) /\
    (In f (s_constant S) \/ In f (s_exogenous S) -> In f (s_functions S)) /\
    (In f (s_prognostic S) <-> time_differentiated f eqs).
  Proof.
    intros H. apply pde_system_inv in H as (F & P & C & X & _). intros f.
    pose proof (in_constant _ _ _ C f) as Cf. pose proof (in_exogenous (s_functions S) (s_prognostic S) (s_constant S) f) as Xf.
    rewrite <- X in Xf.
    split; [rewrite F; apply in_functions|]. split; [|split].
    - intros Hf. unfold exactly_one.
      destruct (in_dec sx_eq_dec f (s_prognostic S)); [left; tauto|].
      destruct (in_dec sx_eq_dec f (s_constant S)); [right; left; tauto|]. right; right. tauto.
    - tauto.
    - apply in_prognostic; auto.
  Qed.

  Lemma constant_first_arg eqs S : pde_system enum eqs = Ok S -> forall f, In f (s_constant S) ->
    exists a r, args f = a :: r /\ ~ In time (subterms a).
  Proof. intros H f Hf. apply pde_system_inv in H as (F & P & C & X & _). apply (in_constant _ _ _ C f) in Hf. tauto. Qed.

  Lemma constant_no_time eqs S : pde_system enum eqs = Ok S ->
    (forall f l, occurs (SApp f l) eqs -> In time (flat_map subterms l) ->
                 exists a r, l = a :: r /\ In time (subterms a)) ->
    forall f, In f (s_constant S) -> ~ In time (subterms f).
  Proof.
    intros H TF f Hf Ht. destruct (constant_first_arg _ _ H f Hf) as (a & r & Ha & Na).
    destruct (functions_partition _ _ H f) as (F1 & _ & F2 & _).
    destruct (proj1 F1 (F2 (or_introl Hf))) as [[(g & l & ->)|(e & ->)] O].
    - simpl in Ha. subst l. destruct Ht as [Ht|Ht]; [discriminate|].
      destruct (TF _ _ O Ht) as (a' & r' & Hl & Ht'). injection Hl as -> ->. contradiction.
    - simpl in Ha. injection Ha as <- <-. destruct Ht as [Ht|Ht]; [discriminate|contradiction].
  Qed.

  Lemma in_constants eqs S : pde_system enum eqs = Ok S -> forall x,
    In x (s_constants S) <-> a_symbol x /\ occurs_rhs x eqs /\ ~ In x (s_coordinates S) /\ ~ a_trainable x.
  Proof.
    intros H x. apply pde_system_inv in H as (_ & _ & _ & _ & _ & _ & _ & C & _). rewrite C.
    unfold get_constants. rewrite in_union_all. split.
    - intros (m & Hm & Hx). apply in_map_iff in Hm as ([l r] & <- & Hq). rewrite !in_difference, !in_atoms in Hx.
      destruct Hx as [[[H1 H2] H3] H4]. simpl in *. repeat split; auto.
      + apply is_symbol_iff; auto.
      + exists l, r; auto.
      + rewrite <- is_trainable_iff. tauto.
    - intros (H1 & (l & r & Hq & Hx) & H3 & H4). eexists. split; [apply in_map; exact Hq|].
      rewrite !in_difference, !in_atoms. simpl. rewrite is_symbol_iff, is_trainable_iff. tauto.
  Qed.
  Lemma in_trainable eqs S : pde_system enum eqs = Ok S -> forall x,
    In x (s_trainable S) <-> a_trainable x /\ occurs_rhs x eqs.
  Proof.
    intros H x. apply pde_system_inv in H as (_ & _ & _ & _ & _ & _ & T & _). rewrite T.
    unfold get_trainable. rewrite in_union_all. split.
    - intros (m & Hm & Hx). apply in_map_iff in Hm as ([l r] & <- & Hq). apply in_atoms in Hx as [H1 H2].
      split; [apply is_trainable_iff; auto|]. exists l, r; auto.
    - intros (H1 & (l & r & Hq & Hx)). eexists. split; [apply in_map; exact Hq|]. apply in_atoms.
      split; [apply is_trainable_iff; auto|auto].
  Qed.

End Enum.

Definition coords_step (c : list sx) (f : sx) : list sx :=
  if Nat.ltb (List.length c) (List.length (args f)) then args f else c.

Lemma coordinates_gen p : forall c,
  (fold_left coords_step p c = c /\ Forall (fun g => List.length (args g) <= List.length c) p) \/
  exists l1 f l2, p = l1 ++ f :: l2 /\ fold_left coords_step p c = args f /\
    List.length c < List.length (args f) /\
    Forall (fun g => List.length (args g) < List.length (args f)) l1 /\
    Forall (fun g => List.length (args g) <= List.length (args f)) l2.
Proof.
  induction p as [|g p IH]; intros c; cbn [fold_left]; [left; auto|].
  unfold coords_step at 2 4. destruct (Nat.ltb_spec (List.length c) (List.length (args g))) as [L|L].
  - right. destruct (IH (args g)) as [[H1 H2]|(l1 & f & l2 & -> & H1 & H2 & H3 & H4)].
    + exists [], g, p. repeat split; auto.
    + exists (g :: l1), f, l2. repeat split; auto. lia.
  - destruct (IH c) as [[H1 H2]|(l1 & f & l2 & -> & H1 & H2 & H3 & H4)].
    + left. split; auto.
    + right. exists (g :: l1), f, l2. repeat split; auto. constructor; auto. lia.
Qed.

Lemma coordinates_spec p :
  (get_coordinates p = [] /\ forall f, In f p -> args f = []) \/
  exists l1 f l2, p = l1 ++ f :: l2 /\ get_coordinates p = args f /\ args f <> [] /\
    Forall (fun g => List.length (args g) < List.length (args f)) l1 /\
    Forall (fun g => List.length (args g) <= List.length (args f)) l2.
Proof.
  destruct (coordinates_gen p []) as [[H1 H2]|(l1 & f & l2 & -> & H1 & H2 & H3 & H4)].
  - left. split; [exact H1|]. rewrite Forall_forall in H2. intros f Hf. specialize (H2 f Hf).
    destruct (args f); auto. simpl in H2. lia.
  - right. exists l1, f, l2. repeat split; auto. intros A. rewrite A in H2. simpl in H2. lia.
Qed.

(** ** orders *)
Lemma dset_new {V} k (v : V) d : ~ In k (dkeys d) -> dset string_dec k v d = d ++ [(k, v)].
Proof.
  induction d as [|[k' v'] d IH]; simpl; auto. intros N. destruct (string_dec k k'); [subst; tauto|].
  rewrite IH; auto.
Qed.
Lemma partial_orders_nodup (v : list (string * nat)) : NoDup (map fst v) -> forall d : dict string nat, (forall k, In k (map fst v) -> ~ In k (dkeys d)) ->
  fold_left (fun d p => dset string_dec (fst p) (snd p) d) v d = d ++ v.
Proof.
  induction v as [|[k n] v IH]; intros N d H; cbn [fold_left]; [rewrite app_nil_r; reflexivity|].
  inversion N; subst. cbn [fst snd]. rewrite dset_new by (apply H; simpl; auto). rewrite IH; auto.
  - rewrite <- app_assoc. reflexivity.
  - intros k' Hk' Hi. unfold dkeys in Hi. rewrite map_app, in_app_iff in Hi. destruct Hi as [Hi|[<-|[]]].
    + apply (H k'); simpl; auto.
    + contradiction.
Qed.
Lemma total_order_count f v : v <> [] -> NoDup (map fst v) -> total_order v = Ok (derivative_count (SDer f v)).
Proof.
  intros H N. unfold total_order, partial_orders. destruct v as [|p v]; [contradiction|]. cbn [bind].
  rewrite partial_orders_nodup by (auto; intros k _ []). simpl app. f_equal.
  clear. simpl. f_equal. induction v as [|q v IH]; simpl; auto.
Qed.
Lemma total_order_sum v d : partial_orders v = Ok d -> total_order v = Ok (list_sum (map snd d)).
Proof. intros H. unfold total_order. rewrite H. reflexivity. Qed.

(** ** when construction fails *)
Lemma construction enum (E : forall l, Permutation (enum l) l) eqs : proper eqs ->
  (forall f, a_function f -> occurs f eqs -> args f <> []) ->
  match pde_system enum eqs with
  | Ok _ => exists f r, time_differentiated f eqs /\ args f = time :: r
  | Err IndexError => forall f, time_differentiated f eqs -> args f = []
  | Err AssertionError =>
      exists f c r, time_differentiated f eqs /\ args f = c :: r /\ c <> time /\
        forall g, time_differentiated g eqs -> List.length (args g) <= List.length (args f)
  | Err _ => False
  end.
Proof.
  intros P Z. unfold pde_system. destruct (prognostic_ok enum E eqs P) as [p Hp]. rewrite Hp. cbn [bind].
  assert (C : exists c, get_constant enum (get_functions eqs) p = Ok c).
  { unfold get_constant. apply foldM_const_ok. intros f Hf. apply (proj1 (in_enum enum E _ _)), in_difference in Hf as [Hf _].
    apply in_functions in Hf as [H1 H2]. auto. }
  destruct C as [c ->]. cbn [bind]. pose proof (in_prognostic enum E eqs p Hp) as IP.
  destruct (coordinates_spec p) as [[H1 H2]|(l1 & f & l2 & -> & H1 & H2 & H3 & H4)]; rewrite H1.
  - cbn [get_spatial bind]. intros f Hf. apply H2. apply IP; auto.
  - assert (Tf : time_differentiated f eqs) by (apply IP; apply in_or_app; simpl; auto).
    destruct (args f) as [|x r] eqn:A; [contradiction|]. cbn [get_spatial].
    destruct (sx_eq_dec x time) as [->|N]; cbn [bind].
    + exists f, r. auto.
    + exists f, x, r. repeat split; auto. intros g Hg. apply IP in Hg. rewrite A.
      rewrite Forall_forall in H3, H4.
      apply in_app_or in Hg as [Hg|[<-|Hg]]; [specialize (H3 g Hg); lia|rewrite A; lia|apply H4; auto].
Qed.

(** ** one time derivative per equation *)
Lemma prognostic_in_order enum (E : forall l, Permutation (enum l) l) eqs fs :
  Forall2 (fun q f => (exists n v, In (SDer f (("t", n) :: v)) (eq_atoms is_derivative q) /\
             forall g m w, In (SDer g (("t", m) :: w)) (eq_atoms is_derivative q) ->
                           SDer g (("t", m) :: w) = SDer f (("t", n) :: v)) /\
             forall g w, In (SDer g w) (eq_atoms is_derivative q) -> w <> []) eqs fs ->
  get_prognostic enum eqs = Ok fs.
Proof.
  intros H. unfold get_prognostic.
  assert (G : mapM (prognostic_of enum) eqs = Ok (map (fun f => [f]) fs)).
  { induction H as [|q f eqs fs [(n & v & H1 & H2) H3] _ IH]; cbn [mapM map]; auto.
    assert (Pq : prognostic_of enum q = Ok [f]); [|rewrite Pq, IH; reflexivity].
    unfold prognostic_of.
    assert (ND : NoDup (enum (eq_atoms is_derivative q))).
    { eapply Permutation_NoDup; [apply Permutation_sym, E|]. apply NoDup_nodup. }
    assert (I1 : forall d, In d (enum (eq_atoms is_derivative q)) <-> In d (eq_atoms is_derivative q))
      by (intros; apply in_enum; auto).
    assert (D : forall d, In d (enum (eq_atoms is_derivative q)) -> is_derivative d = true).
    { intros d Hd. apply I1, in_eq_atoms in Hd. tauto. }
    apply I1 in H1. assert (H2' : forall g m w, In (SDer g (("t", m) :: w)) (enum (eq_atoms is_derivative q)) ->
                           SDer g (("t", m) :: w) = SDer f (("t", n) :: v)) by (intros; apply H2; apply I1; auto).
    assert (H3' : forall g w, In (SDer g w) (enum (eq_atoms is_derivative q)) -> w <> []) by (intros g w Hw; apply (H3 g); apply I1; auto).
    clear H2 H3 I1 IH. revert ND D H1 H2' H3'. generalize (enum (eq_atoms is_derivative q)). intros l.
    assert (None : forall l acc, (forall d, In d l -> is_derivative d = true) -> (forall g w, In (SDer g w) l -> w <> []) ->
       (forall g m w, ~ In (SDer g (("t", m) :: w)) l) ->
       foldM (fun acc d => c <- first_variable d ;;
                        if String.eqb c "t" then match d with SDer f _ => Ok (acc ++ [f]) | _ => Ok acc end
                        else Ok acc) acc l = Ok acc).
    { clear. induction l as [|d l IH]; intros acc D W N; cbn [foldM]; auto.
      assert (Dd := D d (or_introl eq_refl)). destruct d as [| | | |g w| | | | |]; try discriminate.
      destruct w as [|[c m] w]; [destruct (W g []); simpl; auto|]. cbn [first_variable bind].
      destruct (String.eqb c "t") eqn:Ec; cbn [bind].
      - apply String.eqb_eq in Ec. subst. exfalso. eapply N. left. reflexivity.
      - apply IH; intros; try (apply D; simpl; auto; fail).
        + eapply W. right. eassumption.
        + intros Hi. eapply N. right. eassumption. }
    intros ND. induction l as [|d l IH]; intros D H1 H2 H3; [contradiction|].
    inversion ND as [|? ? Nd ND']; subst.
    assert (Dd := D d (or_introl eq_refl)). destruct d as [| | | |g w| | | | |]; try discriminate.
    destruct w as [|[c m] w]; [destruct (H3 g []); simpl; auto|]. cbn [foldM first_variable bind].
    destruct (String.eqb c "t") eqn:Ec; cbn [bind].
    - apply String.eqb_eq in Ec. subst. pose proof (H2 g m w (or_introl eq_refl)) as Eq. rewrite Eq in Nd.
      injection Eq as -> _ _. apply None; auto.
      + intros; apply D; simpl; auto.
      + intros g' w' Hi. eapply H3. right. exact Hi.
      + intros g' m' w' Hi. pose proof (H2 g' m' w' (or_intror Hi)) as Eq. rewrite Eq in Hi. contradiction.
    - apply IH; auto.
      + intros; apply D; simpl; auto.
      + destruct H1 as [H1|H1]; auto. injection H1 as -> -> _ _. discriminate.
      + intros; apply H2; simpl; auto.
      + intros g' w' Hi. eapply H3. right. exact Hi. }
  rewrite G. cbn [bind]. f_equal. clear. induction fs; simpl; congruence.
Qed.
