(** Proofs about TreeModel. *)
From Coq Require Import List Arith ZArith QArith Qcanon Bool String Lia Permutation Ring.
From Verif Require Import PyBase PyBaseFacts PartialOrderModel PartialOrderSpec PartialOrderProofs
  TreeModel TreeSpec Reynolds.
Import ListNotations.
Close Scope Q_scope.
Close Scope Qc_scope.
Open Scope nat_scope.
Open Scope list_scope.

(** ** keys *)
Lemma lex_total a b : lex_le a b = false -> lex_le b a = true.
Proof.
  revert b. induction a as [|x a IH]; destruct b as [|y b]; simpl; intros H; auto; try discriminate.
  destruct (Z.ltb_spec x y); [discriminate|]. destruct (Z.ltb_spec y x); auto.
Qed.
Lemma lex_antisym a b : lex_le a b = true -> lex_le b a = true -> a = b.
Proof.
  revert b. induction a as [|x a IH]; destruct b as [|y b]; simpl; intros H1 H2; auto; try discriminate.
  destruct (Z.ltb_spec x y), (Z.ltb_spec y x); try discriminate; try lia.
  f_equal; [lia|auto].
Qed.
Lemma ekey_comm a b : ekey a b = ekey b a.
Proof.
  unfold ekey. destruct (lex_le a b) eqn:E1, (lex_le b a) eqn:E2; auto.
  - rewrite (lex_antisym a b E1 E2). reflexivity.
  - rewrite (lex_total _ _ E1) in E2. discriminate.
Qed.
Lemma ekey_cases a b : ekey a b = (a, b) \/ ekey a b = (b, a).
Proof. unfold ekey. destruct lex_le; auto. Qed.
Lemma ekey_inj a b c d : ekey a b = ekey c d -> (a = c /\ b = d) \/ (a = d /\ b = c).
Proof.
  destruct (ekey_cases a b) as [->| ->], (ekey_cases c d) as [->| ->]; intros E; inversion E; auto.
Qed.

(** ** semantics *)
Section Sem.
  Context {A : RAlg}.
  Add Ring A_ring : (c_th A).
  Open Scope ra_scope.
  Variables (coords : list string) (eps : A).

  Notation mom := (moment coords eps).
  Notation ev := (expr_value coords eps).

  Lemma moment_comm a b : mom a b = mom b a.
  Proof. unfold moment. f_equal. ring. Qed.
  Lemma moment_key a b : mom (fst (ekey a b)) (snd (ekey a b)) = mom a b.
  Proof. destruct (ekey_cases a b) as [->| ->]; simpl; auto using moment_comm. Qed.

  Lemma zq_mul x y : zq (x * y) = (zq x * zq y)%Qc.
  Proof. unfold zq, Qcmult. apply Qc_is_canon. cbn [this Q2Qc]. rewrite !Qred_correct, inject_Z_mult. reflexivity. Qed.

  Lemma ev_app e1 e2 : ev (e1 ++ e2) = ev e1 + ev e2.
  Proof. induction e1 as [|[[c ds] k] r IH]; simpl; [ring|]. rewrite IH. ring. Qed.

  Lemma ev_scale c ds v : ev (map (fun t2 => let '(c2, ds2, k2) := t2 in ((c * c2)%Z, ds ++ ds2, k2)) v)
    = cq (zq c) * dds ds (ev v).
  Proof.
    induction v as [|[[c2 ds2] k2] r IH]; simpl; [rewrite dds_0; ring|].
    rewrite IH, zq_mul, cq_mul, dds_app, dds_add, dds_scal. ring.
  Qed.

  (** a rule is sound *)
  Definition sound_rule (kv : ekeyT * texp) : Prop := ev (snd kv) = mom (fst (fst kv)) (snd (fst kv)).

  Lemma subs_one_sound kv e : sound_rule kv -> ev (subs_one kv e) = ev e.
  Proof.
    intros H. unfold subs_one. induction e as [|[[c ds] k] r IH]; simpl; [reflexivity|].
    rewrite ev_app, IH. f_equal. destruct ekey_dec as [->|].
    - rewrite ev_scale, H. reflexivity.
    - simpl. ring.
  Qed.

  Lemma subs_dict_sound enumD d e : (forall l, Permutation (enumD l) l) ->
    (forall kv, In kv d -> sound_rule kv) -> ev (subs_dict enumD d e) = ev e.
  Proof.
    intros Hp H. unfold subs_dict.
    assert (H' : forall kv, In kv (enumD d) -> sound_rule kv).
    { intros kv Hi. apply H. eapply Permutation_in; eauto. }
    clear H. revert e. induction (enumD d) as [|kv r IH]; intros e; simpl; [reflexivity|].
    rewrite IH by (intros; apply H'; right; auto). apply subs_one_sound. apply H'. left; auto.
  Qed.

  (** derivatives by multi-index *)
  Lemma iter_dd_comm n c d (a : A) : Nat.iter n (dd c) (dd d a) = dd d (Nat.iter n (dd c) a).
  Proof. induction n; simpl; [reflexivity|]. rewrite IHn. apply dd_comm. Qed.
  Lemma iter_dd_pos z c (a : A) : (0 <= z)%Z -> Nat.iter (Z.to_nat (z + 1)) (dd c) a = dd c (Nat.iter (Z.to_nat z) (dd c) a).
  Proof. intros H. replace (Z.to_nat (z + 1)) with (S (Z.to_nat z)) by lia. reflexivity. Qed.

  Lemma deriv_bump cs o i x (a : A) : cindex x cs = Ok i -> List.length o = List.length cs ->
    (forall z, In z o -> (0 <= z)%Z) ->
    deriv cs (set_nth i (nth i o 0 + 1)%Z o) a = dd x (deriv cs o a).
  Proof.
    revert o i. induction cs as [|c r IH]; intros o i Hi Hl Hp; [discriminate|].
    destruct o as [|z o]; [discriminate|]. simpl in Hi.
    destruct (string_dec x c) as [->|n].
    - inversion Hi; subst. simpl. apply iter_dd_pos. apply Hp; left; auto.
    - destruct (cindex x r) as [j|] eqn:E; simpl in Hi; [|discriminate]. inversion Hi; subst. simpl.
      rewrite IH by (simpl in *; auto). apply iter_dd_comm.
  Qed.
End Sem.

(** first coordinate of a multi-index and what is left of it *)
Lemma as_sequence_split coords o n d : NoDup coords -> List.length coords = n -> nz_index n d o ->
  exists x rest i o', as_sequence (mkPod coords o) = x :: rest /\ cindex x coords = Ok i
    /\ pod_new (mkPod coords o) (VList (map VCoord rest)) = Ok (mkPod coords o')
    /\ o = set_nth i (nth i o' 0 + 1)%Z o'
    /\ multi_index n (Z.of_nat (d - 1)) o'.
Proof.
  intros Hn Hl [[Hlo [Hp Hs]] Hd].
  assert (G : forall cs o, NoDup cs -> List.length o = List.length cs -> (forall z, In z o -> (0 <= z)%Z) ->
    (0 < fold_right Z.add 0%Z o)%Z ->
    exists x rest i o', as_sequence (mkPod cs o) = x :: rest /\ cindex x cs = Ok i /\ i < List.length o
      /\ List.length o' = List.length cs /\ (forall z, In z o' -> (0 <= z)%Z)
      /\ o = set_nth i (nth i o' 0 + 1)%Z o' /\ as_sequence (mkPod cs o') = rest).
  { clear. intros cs. induction cs as [|c r IH]; intros o Hn Hl Hp Hs.
    - destruct o; [simpl in Hs; lia|discriminate].
    - destruct o as [|z o]; [discriminate|]. inversion Hn; subst.
      assert (0 <= z)%Z by (apply Hp; left; auto).
      destruct (Z.eq_dec z 0) as [->|nz].
      + destruct (IH o) as (x & rest & i & o' & E1 & E2 & E3 & E4 & E5 & E6 & E7); auto.
        { intros; apply Hp; right; auto. }
        exists x, rest, (S i), (0%Z :: o'). unfold as_sequence, as_couples in *. simpl in *.
        split; [auto|]. split; [destruct (string_dec x c) as [->|]; [|rewrite E2; reflexivity]|].
        { exfalso. apply cindex_nth, nth_error_In in E2. auto. }
        split; [lia|]. split; [lia|]. split; [intros z [<-|]; [lia|auto]|].
        split; [congruence|auto].
      + exists c, (repeat c (Z.to_nat (z - 1)) ++ as_sequence (mkPod r o)), 0, ((z - 1)%Z :: o).
        unfold as_sequence, as_couples. simpl.
        assert (Hz : (0 <? z)%Z = true) by (apply Z.ltb_lt; lia). rewrite Hz.
        replace (Z.to_nat z) with (S (Z.to_nat (z - 1))) by lia. simpl.
        split; [reflexivity|]. destruct (string_dec c c); [|congruence].
        split; [reflexivity|]. split; [lia|]. split; [simpl in *; lia|].
        split; [intros z' [<-|]; [lia|apply Hp; right; auto]|].
        split; [f_equal; lia|].
        destruct (Z.ltb_spec 0 (z - 1)); [reflexivity|]. replace (z - 1)%Z with 0%Z by lia. reflexivity. }
  destruct (G coords o) as (x & rest & i & o' & E1 & E2 & E3 & E4 & E5 & E6 & E7); auto; [congruence|lia|].
  exists x, rest, i, o'. split; [auto|]. split; [auto|]. split.
  - pose proof (roundtrip_sequence (mkPod coords o')) as R. unfold pod_new, sequence_value in *.
    cbn [p_coords p_tuple] in *. rewrite E7 in R. apply R; auto.
  - split; [auto|]. split; [congruence|]. split; [auto|].
    rewrite E6 in Hs. rewrite sum_set_nth in Hs by lia. lia.
Qed.

Lemma bump_index n d o i : multi_index n (Z.of_nat d) o -> i < n ->
  multi_index n (Z.of_nat (S d)) (set_nth i (nth i o 0 + 1)%Z o).
Proof.
  intros [Hl [Hp Hs]] Hi. split; [rewrite set_nth_length; auto|]. split.
  - intros z Hz. apply in_set_nth in Hz. destruct Hz as [->|]; auto. pose proof (nth_nonneg o i Hp). lia.
  - rewrite sum_set_nth by lia. lia.
Qed.

Lemma cindex_lt x l i : cindex x l = Ok i -> i < List.length l.
Proof. intros H. apply cindex_nth in H. apply nth_error_Some. congruence. Qed.

Lemma index_degree n a b x y : multi_index n (Z.of_nat x) a -> multi_index n (Z.of_nat y) b -> a = b -> x = y.
Proof. intros [_ [_ H1]] [_ [_ H2]] ->. lia. Qed.

Lemma zero_index_spec n : multi_index n 0 (zero_index n).
Proof.
  unfold zero_index. split; [apply repeat_length|]. split.
  - intros z H. apply repeat_spec in H. lia.
  - induction n; simpl; auto.
Qed.
Lemma zero_index_uniq n o : multi_index n 0 o -> o = zero_index n.
Proof. intros [Hl [Hp Hs]]. rewrite (zero_sum o Hp Hs). rewrite Hl. reflexivity. Qed.

(** the two terms on the right of the equation at 1255 are different *)
Lemma keys_differ n da db a b a' bx :
  multi_index n (Z.of_nat (S da)) a -> multi_index n (Z.of_nat db) b -> S da <= db ->
  multi_index n (Z.of_nat da) a' -> multi_index n (Z.of_nat (S db)) bx ->
  ekey a b <> ekey a' bx.
Proof.
  intros Ha Hb Hle Ha' Hbx E. apply ekey_inj in E. destruct E as [[E _]|[E _]].
  - pose proof (index_degree _ _ _ _ _ Ha Ha' E). lia.
  - pose proof (index_degree _ _ _ _ _ Ha Hbx E). lia.
Qed.

Section Arith.
  Context {A : RAlg}.
  Add Ring A_ring2 : (c_th A).
  Lemma raw_arith (p q : A) :
    cadd (cmul c1 (cadd p q)) (cadd (cmul (copp c1) q) c0) = p.
  Proof. ring. Qed.
End Arith.

(** ** one step *)
Section Build.
  Variable enum : list mi -> list mi.
  Hypothesis enum_perm : forall l, Permutation (enum l) l.
  Variable enumD : tdict -> tdict.
  Hypothesis enumD_perm : forall l, Permutation (enumD l) l.
  Variable ss : bool.
  Variable coords : list string.
  Hypothesis Hnd : NoDup coords.
  Hypothesis Hne : coords <> [].
  Notation n := (List.length coords).

  (** what one step writes *)
  Lemma tree_step_ok tr level a b da db : nz_index n da a -> nz_index n db b ->
    exists i x a' , cindex x coords = Ok i /\ a = set_nth i (nth i a' 0 + 1)%Z a'
      /\ multi_index n (Z.of_nat (da - 1)) a' /\
      let v0 := [(1%Z, [x], ekey a' b); ((-1)%Z, [], ekey a' (set_nth i (nth i b 0 + 1)%Z b))] in
      let v := if ss then subs_dict enumD tr v0 else v0 in
      tree_step enumD ss coords (tr, level) (mkPod coords a, mkPod coords b)
      = Ok (dset ekey_dec (ekey a b) v tr, dset ekey_dec (ekey a b) v level).
  Proof.
    intros Ha Hb. destruct (as_sequence_split coords a n da Hnd eq_refl Ha) as (x & rest & i & a' & E1 & E2 & E3 & E4 & E5).
    exists i, x, a'. split; [auto|]. split; [auto|]. split; [auto|]. simpl.
    unfold tree_step. rewrite E1, E3. cbn [bind]. unfold bump. rewrite E2. cbn [bind p_tuple]. reflexivity.
  Qed.

  (** the pairs of one pass of the outer loop *)
  Lemma pairs_ok degree ad : exists l, pairs_of enum coords degree ad
      = Ok (map (fun ab => (mkPod coords (fst ab), mkPod coords (snd ab))) l)
    /\ forall a b, In (a, b) l <-> multi_index n (Z.of_nat ad) a /\ multi_index n (Z.of_nat (degree - ad)) b.
  Proof.
    unfold pairs_of.
    destruct (all_of_degree_spec enum enum_perm coords (Z.of_nat ad) Hne) as [la [E1 [_ H1]]].
    destruct (all_of_degree_spec enum enum_perm coords (Z.of_nat (degree - ad)) Hne) as [lb [E2 [_ H2]]].
    rewrite E1, E2. cbn [bind].
    assert (G : mapM (fun alpha => Ok (map (pair alpha) (map (mkPod coords) lb))) (map (mkPod coords) la)
      = Ok (map (fun a => map (fun b => (mkPod coords a, mkPod coords b)) lb) la)).
    { clear. induction la as [|a r IH]; [reflexivity|]. simpl. rewrite IH. cbn [bind]. rewrite map_map. reflexivity. }
    rewrite G. cbn [bind]. exists (List.concat (map (fun a => map (pair a) lb) la)). split.
    - f_equal. rewrite concat_map, map_map. f_equal. apply map_ext. intros a. rewrite map_map. reflexivity.
    - intros a b. rewrite in_concat. split.
      + intros [l [Hl Hab]]. apply in_map_iff in Hl. destruct Hl as [a0 [<- Ha0]].
        apply in_map_iff in Hab. destruct Hab as [b0 [E Hb0]]. inversion E; subst. split; [apply H1|apply H2]; auto.
      + intros [Ha Hb]. exists (map (pair a) lb). split; apply in_map_iff; eauto.
        * exists a. split; auto. apply H1; auto.
        * exists b. split; auto. apply H2; auto.
  Qed.

  (** *** invariants of a dictionary of rules *)
  (** keys are pairs of non-zero indices of total degree at most [d] *)
  Definition keys_ok (d : nat) (t : tdict) : Prop := forall k v, In (k, v) t ->
    exists a b x y, k = ekey a b /\ nz_index n x a /\ nz_index n y b /\ x + y <= d.
  Definition complete_upto (d : nat) (t : tdict) : Prop := forall a b x y,
    nz_index n x a -> nz_index n y b -> x + y <= d -> dget ekey_dec (ekey a b) t <> None.
  (** during level [d]: pairs with one index of degree at most [k] *)
  Definition complete_level (d k : nat) (t : tdict) : Prop := forall a b x y,
    nz_index n x a -> nz_index n y b -> x + y = d -> x <= k -> dget ekey_dec (ekey a b) t <> None.
  Definition nf_exp (d : nat) (e : texp) : Prop := forall c ds k, In (c, ds, k) e ->
    exists g z, k = ekey (zero_index n) g /\ multi_index n (Z.of_nat z) g /\ List.length ds + z = d.
  Definition nf (t : tdict) : Prop := forall a b x y v, nz_index n x a -> nz_index n y b ->
    In (ekey a b, v) t -> nf_exp (x + y) v.
  Definition sound (t : tdict) : Prop := forall (A : RAlg) (eps : A) kv, In kv t -> sound_rule coords eps kv.

  Lemma in_dset {V} k (v : V) d k' v' : In (k', v') (dset ekey_dec k v d) -> (k' = k /\ v' = v) \/ In (k', v') d.
  Proof.
    induction d as [|[k0 v0] r IH]; simpl.
    - intros [E|[]]. inversion E; auto.
    - destruct (ekey_dec k k0) as [->|]; simpl.
      + intros [E|H]; [inversion E; auto|auto].
      + intros [E|H]; [inversion E; auto|]. destruct (IH H); auto.
  Qed.
  Lemma dget_dset {V} k (v : V) d k' : dget ekey_dec k' (dset ekey_dec k v d)
    = if ekey_dec k' k then Some v else dget ekey_dec k' d.
  Proof.
    induction d as [|[k0 v0] r IH]; simpl.
    - destruct (ekey_dec k' k); reflexivity.
    - destruct (ekey_dec k k0) as [->|]; simpl.
      + destruct (ekey_dec k' k0); reflexivity.
      + rewrite IH. destruct (ekey_dec k' k0), (ekey_dec k' k); congruence.
  Qed.
  Lemma dget_in {V} k (d : dict ekeyT V) v : dget ekey_dec k d = Some v -> In (k, v) d.
  Proof.
    induction d as [|[k0 v0] r IH]; simpl; [discriminate|]. destruct (ekey_dec k k0) as [->|]; auto.
    intros E; inversion E; auto.
  Qed.

  (** the raw rule is an identity *)
  Lemma raw_sound a b x i a' db (A : RAlg) (eps : A) da : cindex x coords = Ok i ->
    a = set_nth i (nth i a' 0 + 1)%Z a' -> multi_index n (Z.of_nat da) a' -> multi_index n (Z.of_nat db) b ->
    expr_value coords eps [(1%Z, [x], ekey a' b); ((-1)%Z, [], ekey a' (set_nth i (nth i b 0 + 1)%Z b))]
    = moment coords eps a b.
  Proof.
    intros Hi Ea Ha' Hb. cbn [expr_value]. rewrite !moment_key.
    destruct Ha' as [Hl [Hp _]], Hb as [Hlb [Hpb _]].
    unfold moment. rewrite Ea. rewrite !deriv_bump with (x := x) by auto.
    set (u := deriv coords a' eps). set (w := deriv coords b eps). cbn [dds].
    change (zq 1) with (1%Qc). change (zq (-1)) with (- (1))%Qc. rewrite cq_opp, cq_1.
    rewrite <- EE_dd, dd_mul, EE_add. generalize (EE (cmul (dd x u) w)) (EE (cmul u (dd x w))).
    intros p q. apply raw_arith.
  Qed.

  Lemma subs_one_in kv e t : In t (subs_one kv e) ->
    (In t e /\ snd t <> fst kv) \/
    (exists c ds c2 ds2 k2, t = ((c * c2)%Z, ds ++ ds2, k2) /\ In (c, ds, fst kv) e /\ In (c2, ds2, k2) (snd kv)).
  Proof.
    unfold subs_one. rewrite in_flat_map. intros [[[c ds] k] [H1 H2]].
    destruct ekey_dec as [->|nk].
    - apply in_map_iff in H2. destruct H2 as [[[c2 ds2] k2] [<- H2]]. right. exists c, ds, c2, ds2, k2. auto.
    - destruct H2 as [<-|[]]. left. auto.
  Qed.

  (** a term of degree [d]: |ds| + |a| + |b| = d *)
  Definition term_ok (d : nat) (t : tterm) : Prop := let '(c, ds, k) := t in
    exists a b x y, k = ekey a b /\ multi_index n (Z.of_nat x) a /\ multi_index n (Z.of_nat y) b
      /\ List.length ds + x + y = d.

  Lemma nf_not_key g a b x y z : nz_index n x a -> nz_index n y b -> multi_index n (Z.of_nat z) g ->
    ekey (zero_index n) g <> ekey a b.
  Proof.
    intros [Ha Hx] [Hb Hy] Hg E. apply ekey_inj in E.
    pose proof (zero_index_spec n) as H0. change 0%Z with (Z.of_nat 0) in H0.
    destruct E as [[E _]|[E _]]; [pose proof (index_degree _ _ _ _ _ H0 Ha E)|pose proof (index_degree _ _ _ _ _ H0 Hb E)]; congruence.
  Qed.

  Definition nft (d : nat) (t : tterm) : Prop :=
    exists g z, snd t = ekey (zero_index n) g /\ multi_index n (Z.of_nat z) g /\ List.length (snd (fst t)) + z = d.

  (** after the substitutions every term is a normal form, or is a term that is no key *)
  Lemma subs_fold_in d D t0 : keys_ok D t0 -> nf t0 ->
    forall entries (P : tterm -> Prop) e, (forall t, P t -> term_ok d t) -> (forall kv, In kv entries -> In kv t0) ->
    (forall t, In t e -> P t \/ nft d t) ->
    forall t, In t (fold_left (fun e kv => subs_one kv e) entries e) ->
      (P t /\ forall kv, In kv entries -> fst kv <> snd t) \/ nft d t.
  Proof.
    intros Hk Hnf. induction entries as [|kv r IH]; intros P e HP Hin He t Ht; simpl in Ht.
    - destruct (He t Ht); auto.
    - destruct (Hk (fst kv) (snd kv)) as (a & b & x & y & Ek & Ha & Hb & _).
      { destruct kv. apply Hin. left; auto. }
      assert (Hv : nf_exp (x + y) (snd kv)).
      { apply (Hnf a b x y); auto. rewrite <- Ek. destruct kv. apply Hin. left; auto. }
      set (P' := fun t => P t /\ fst kv <> snd t).
      assert (Q : forall t, In t (subs_one kv e) -> P' t \/ nft d t).
      { intros t' Ht'. apply subs_one_in in Ht'. destruct Ht' as [[H1 H2]|(c & ds & c2 & ds2 & k2 & -> & H1 & H2)].
        - destruct (He t' H1); auto. left. split; auto.
        - right. destruct (He _ H1) as [Hp|Hn].
          + apply HP in Hp. destruct Hp as (a0 & b0 & x0 & y0 & Ek0 & Ha0 & Hb0 & Hd).
            destruct (Hv _ _ _ H2) as (g & z & -> & Hg & Hlen).
            assert (x0 + y0 = x + y).
            { rewrite Ek in Ek0. apply ekey_inj in Ek0. destruct Ha as [Ha _], Hb as [Hb _].
              destruct Ek0 as [[E1 E2]|[E1 E2]].
              - rewrite (index_degree _ _ _ _ _ Ha Ha0 E1), (index_degree _ _ _ _ _ Hb Hb0 E2). reflexivity.
              - rewrite (index_degree _ _ _ _ _ Ha Hb0 E1), (index_degree _ _ _ _ _ Hb Ha0 E2). lia. }
            exists g, z. simpl. rewrite app_length. split; [auto|]. split; [auto|]. lia.
          + destruct Hn as (g & z & E & Hg & _). simpl in E. exfalso.
            apply (nf_not_key g a b x y z Ha Hb Hg). congruence. }
      destruct (IH P' (subs_one kv e)) with (t := t) as [[[H1 H2] H3]|]; auto.
      + intros t' [H _]; auto.
      + intros; apply Hin; right; auto.
      + left. split; auto. intros kv' [<-|]; auto.
  Qed.

  (** entries of a level *)
  Definition entry_ok (d : nat) (kv : ekeyT * texp) : Prop :=
    (exists a b x y, fst kv = ekey a b /\ nz_index n x a /\ nz_index n y b /\ x + y = d)
    /\ (forall (A : RAlg) (eps : A), sound_rule coords eps kv)
    /\ (ss = true -> nf_exp d (snd kv)).
  (** invariant of the dictionary [_tree] up to degree [d] *)
  Definition dict_ok (d : nat) (t : tdict) : Prop := forall kv, In kv t -> exists j, j <= d /\ entry_ok j kv.

  Lemma dict_ok_keys d t : dict_ok d t -> keys_ok d t.
  Proof. intros H k v Hi. destruct (H _ Hi) as (j & Hj & (a & b & x & y & E & Ha & Hb & Hs) & _).
    exists a, b, x, y. simpl in E. repeat (split; [assumption|]). lia. Qed.
  Lemma dict_ok_nf d t : ss = true -> dict_ok d t -> nf t.
  Proof.
    intros Hss H a b x y v Ha Hb Hi. destruct (H _ Hi) as (j & Hj & (a0 & b0 & x0 & y0 & E & Ha0 & Hb0 & Hs) & _ & Hn).
    simpl in *. assert (Hj' : x + y = j).
    { destruct Ha as [Ha _], Hb as [Hb _], Ha0 as [Ha0 _], Hb0 as [Hb0 _].
      apply ekey_inj in E. destruct E as [[E1 E2]|[E1 E2]].
      - rewrite (index_degree _ _ _ _ _ Ha Ha0 E1), (index_degree _ _ _ _ _ Hb Hb0 E2). auto.
      - rewrite (index_degree _ _ _ _ _ Ha Hb0 E1), (index_degree _ _ _ _ _ Hb Ha0 E2). lia. }
    rewrite Hj'. apply Hn. exact Hss.
  Qed.
  Lemma dict_ok_sound d t : dict_ok d t -> sound t.
  Proof. intros H A eps kv Hi. destruct (H _ Hi) as (j & _ & _ & Hs & _). apply Hs. Qed.

  (** invariant inside level [d], all pairs with one index of degree at most [k] done *)
  Definition level_inv (d k : nat) (st : tdict * tdict) : Prop :=
    dict_ok d (fst st) /\ complete_upto (d - 1) (fst st) /\
    (forall kv, In kv (snd st) -> entry_ok d kv) /\
    complete_level d k (fst st) /\ complete_level d k (snd st).

  Lemma step_inv d k st a b x y : level_inv d k st -> nz_index n x a -> nz_index n y b -> x + y = d -> x = S k -> x <= y ->
    exists st', tree_step enumD ss coords st (mkPod coords a, mkPod coords b) = Ok st' /\ level_inv d k st'
      /\ dget ekey_dec (ekey a b) (fst st') <> None /\ dget ekey_dec (ekey a b) (snd st') <> None
      /\ (forall key, dget ekey_dec key (fst st) <> None -> dget ekey_dec key (fst st') <> None)
      /\ (forall key, dget ekey_dec key (snd st) <> None -> dget ekey_dec key (snd st') <> None).
  Proof.
    destruct st as [tr level]. intros (I1 & I2 & I3 & I4 & I5) Ha Hb Hd Hk Hxy. simpl in *.
    destruct (tree_step_ok tr level a b x y Ha Hb) as (i & c & a' & Ei & Ea & Ha' & Est). simpl in Est.
    set (bx := set_nth i (nth i b 0%Z + 1)%Z b) in *.
    set (v0 := [(1%Z, [c], ekey a' b); ((-1)%Z, [], ekey a' bx)]) in *.
    set (v := if ss then subs_dict enumD tr v0 else v0) in *.
    eexists. split; [exact Est|].
    assert (Hbx : multi_index n (Z.of_nat (S y)) bx).
    { apply bump_index; [apply Hb|]. eapply cindex_lt; eauto. }
    assert (Hentry : entry_ok d (ekey a b, v)).
    { split; [|split].
      - exists a, b, x, y. auto.
      - intros A eps. unfold sound_rule. simpl. rewrite moment_key.
        rewrite <- (raw_sound a b c i a' y A eps (x - 1) Ei Ea Ha' (proj1 Hb)). fold bx. fold v0.
        unfold v. destruct ss; auto. apply subs_dict_sound; auto. intros kv Hi. apply (dict_ok_sound d tr I1); auto.
      - intros Hss. unfold v. rewrite Hss. simpl.
        pose proof (subs_fold_in d d tr (dict_ok_keys _ _ I1) (dict_ok_nf _ _ Hss I1) (enumD tr)
                      (fun t => In t v0 /\ nz_index n (x - 1) a') v0) as S.
        intros c1 ds1 k1 Hin.
        destruct (S) with (t := (c1, ds1, k1)) as [[[H1 H2] H3]|H]; auto.
        + intros t [[<-|[<-|[]]] _].
          * exists a', b, (x - 1), y. split; [auto|]. split; [auto|]. split; [apply Hb|].
            destruct Ha. simpl. lia.
          * exists a', bx, (x - 1), (Datatypes.S y). split; [auto|]. split; [auto|]. split; [auto|].
            destruct Ha. simpl. lia.
        + intros kv Hkv. eapply Permutation_in; eauto.
        + intros t Ht. destruct (Nat.eq_dec (x - 1) 0) as [Ex|Ex].
          * right. assert (Ez : a' = zero_index n) by (apply zero_index_uniq; rewrite Ex in Ha'; exact Ha').
            destruct Ha as [_ Hx]. destruct Ht as [<-|[<-|[]]]; rewrite Ez.
            -- exists b, y. split; [reflexivity|]. split; [apply Hb|]. simpl. lia.
            -- exists bx, (Datatypes.S y). split; [reflexivity|]. split; [auto|]. simpl. lia.
          * left. split; auto. split; auto.
        + (* a term that is not a key: impossible *)
          exfalso. assert (Hget : dget ekey_dec k1 tr <> None).
          { destruct H1 as [E|[E|[]]]; inversion E; subst k1.
            - apply (I2 a' b (x - 1) y); auto. lia.
            - apply (I4 a' bx (x - 1) (Datatypes.S y)); auto; [|lia|lia]. split; auto. }
          destruct (dget ekey_dec k1 tr) as [w|] eqn:Eg; [|congruence].
          apply dget_in in Eg. apply (H3 (k1, w)); auto.
          eapply Permutation_in; [symmetry; apply enumD_perm|auto]. }
    simpl. split; [split; [|split; [|split; [|split]]]|split; [|split; [|split]]].
    - intros [k' v'] Hi. simpl in Hi. apply in_dset in Hi. destruct Hi as [[-> ->]|Hi]; auto. exists d. split; auto.
    - intros a0 b0 x0 y0 H1 H2 H3. simpl. rewrite dget_dset. destruct ekey_dec; [discriminate|]. eapply I2; eauto.
    - intros [k' v'] Hi. simpl in Hi. apply in_dset in Hi. destruct Hi as [[-> ->]|Hi]; auto.
    - intros a0 b0 x0 y0 H1 H2 H3 H4. simpl. rewrite dget_dset. destruct ekey_dec; [discriminate|]. eapply I4; eauto.
    - intros a0 b0 x0 y0 H1 H2 H3 H4. simpl. rewrite dget_dset. destruct ekey_dec; [discriminate|]. eapply I5; eauto.
    - rewrite dget_dset. destruct ekey_dec; congruence.
    - rewrite dget_dset. destruct ekey_dec; congruence.
    - intros key Hkey. rewrite dget_dset. destruct ekey_dec; congruence.
    - intros key Hkey. rewrite dget_dset. destruct ekey_dec; congruence.
  Qed.

  Lemma steps_inv d k : forall ps st, level_inv d k st ->
    (forall a b, In (a, b) ps -> multi_index n (Z.of_nat (S k)) a /\ multi_index n (Z.of_nat (d - S k)) b) ->
    S k <= d / 2 ->
    exists st', foldM (tree_step enumD ss coords) st (map (fun ab => (mkPod coords (fst ab), mkPod coords (snd ab))) ps) = Ok st'
      /\ level_inv d k st'
      /\ (forall a b, In (a, b) ps -> dget ekey_dec (ekey a b) (fst st') <> None /\ dget ekey_dec (ekey a b) (snd st') <> None)
      /\ (forall key, dget ekey_dec key (fst st) <> None -> dget ekey_dec key (fst st') <> None)
      /\ (forall key, dget ekey_dec key (snd st) <> None -> dget ekey_dec key (snd st') <> None).
  Proof.
    induction ps as [|[a b] r IH]; intros st I Hps Hle.
    - exists st. simpl. repeat (split; [auto; try tauto|]); auto.
    - destruct (Hps a b (or_introl eq_refl)) as [Ha Hb].
      assert (Hd : 2 * (d / 2) <= d) by (apply Nat.mul_div_le; lia).
      destruct (step_inv d k st a b (S k) (d - S k) I) as (st1 & E1 & I1 & G1 & G2 & M1 & M2);
        [split; [auto|lia]|split; [auto|lia]|lia|lia|lia|].
      destruct (IH st1 I1) as (st2 & E2 & I2 & G3 & M3 & M4); [intros; apply Hps; right; auto|auto|].
      exists st2. cbn [map foldM]. simpl fst. simpl snd. rewrite E1. cbn [bind]. split; [exact E2|]. split; [auto|].
      split; [|split; auto].
      intros a0 b0 [E|Hi]; [inversion E; subst; auto|apply G3; auto].
  Qed.

  Lemma level_loop d : forall m k st, level_inv d k st -> k + m = d / 2 ->
    exists st', foldM (fun st ad => ps <- pairs_of enum coords d ad ;; foldM (tree_step enumD ss coords) st ps) st (seq (S k) m) = Ok st'
      /\ level_inv d (d / 2) st'.
  Proof.
    induction m as [|m IH]; intros k st I Hk.
    - exists st. rewrite Nat.add_0_r in Hk. subst k. simpl. auto.
    - simpl. destruct (pairs_ok d (S k)) as [ps [E H]]. rewrite E. cbn [bind].
      destruct (steps_inv d k ps st I) as (st1 & E1 & I1 & G & M1 & M2); [intros a b Hi; apply H; auto|lia|].
      rewrite E1. cbn [bind]. apply IH; [|lia].
      destruct I1 as (J1 & J2 & J3 & J4 & J5). split; [auto|]. split; [auto|]. split; [auto|]. split.
      + intros a b x y Ha Hb Hd Hx. destruct (Nat.eq_dec x (S k)) as [->|]; [|apply (J4 a b x y); auto; lia].
        apply G. apply H. split; [apply Ha|]. replace (d - S k) with y by lia. apply Hb.
      + intros a b x y Ha Hb Hd Hx. destruct (Nat.eq_dec x (S k)) as [->|]; [|apply (J5 a b x y); auto; lia].
        apply G. apply H. split; [apply Ha|]. replace (d - S k) with y by lia. apply Hb.
  Qed.

  Lemma complete_level_all d t : complete_level d (d / 2) t ->
    forall a b x y, nz_index n x a -> nz_index n y b -> x + y = d -> dget ekey_dec (ekey a b) t <> None.
  Proof.
    intros H a b x y Ha Hb Hd. destruct (Nat.le_gt_cases x (d / 2)) as [Hx|Hx]; [eapply H; eauto|].
    rewrite ekey_comm. apply (H b a y x); auto; [lia|].
    assert (d < 2 * S (d / 2)) by (rewrite Nat.mul_comm; pose proof (Nat.mul_succ_div_gt d 2); lia). lia.
  Qed.

  (** *** the object *)
  Definition level_ok (j : nat) (level : tdict) : Prop :=
    (forall kv, In kv level -> entry_ok j kv) /\
    (forall a b x y, nz_index n x a -> nz_index n y b -> x + y = j -> dget ekey_dec (ekey a b) level <> None).
  Definition tree_inv (st : tree) : Prop :=
    dict_ok (t_degree st) (t_tree st) /\ complete_upto (t_degree st) (t_tree st) /\
    map fst (t_levels st) = seq 1 (t_degree st) /\
    (forall j level, In (j, level) (t_levels st) -> level_ok j level).

  Lemma tree_init_inv : tree_inv tree_init.
  Proof.
    split; [intros kv []|]. split; [|split; [reflexivity|intros j l []]].
    intros a b x y [_ H1] [_ H2] H. simpl in H. lia.
  Qed.

  Lemma dset_new_nat {V} k (v : V) (d : dict nat V) : ~ In k (map fst d) -> dset Nat.eq_dec k v d = d ++ [(k, v)].
  Proof.
    induction d as [|[k0 v0] r IH]; simpl; [auto|]. intros H. destruct (Nat.eq_dec k k0) as [->|]; [tauto|].
    rewrite IH; tauto.
  Qed.

  Lemma add_level_inv st : tree_inv st ->
    exists st' level, add_level enum enumD ss coords st = (Ok tt, st') /\ tree_inv st' /\ t_degree st' = S (t_degree st)
      /\ t_levels st' = t_levels st ++ [(S (t_degree st), level)].
  Proof.
    intros (I1 & I2 & I3 & I4). unfold add_level.
    destruct (level_loop (S (t_degree st)) (S (t_degree st) / 2) 0 (t_tree st, [])) as (st1 & E & J); [|lia|].
    { split; [|split; [|split; [|split]]]; simpl.
      - intros kv Hi. destruct (I1 kv Hi) as (j & Hj & He). exists j. split; [lia|auto].
      - rewrite Nat.sub_0_r. auto.
      - tauto.
      - intros a b x y [_ H1] _ _ H. lia.
      - intros a b x y [_ H1] _ _ H. lia. }
    rewrite E. cbn [bind]. destruct st1 as [tr level]. unfold level_inv in J; cbn [fst snd] in J. destruct J as (J1 & J2 & J3 & J4 & J5).
    eexists. exists level. split; [reflexivity|].
    assert (Hl : dset Nat.eq_dec (S (t_degree st)) level (t_levels st) = t_levels st ++ [(S (t_degree st), level)]).
    { apply dset_new_nat. rewrite I3, in_seq. lia. }
    simpl t_degree. simpl t_levels. split; [|split; [reflexivity|exact Hl]].
    split; [exact J1|]. split; [|split]; cbn [t_degree t_tree t_levels].
    - intros a b x y Ha Hb Hd. destruct (Nat.eq_dec (x + y) (S (t_degree st))) as [Ed|].
      + exact (complete_level_all _ _ J4 a b x y Ha Hb Ed).
      + apply (J2 a b x y); auto. simpl. lia.
    - rewrite Hl, map_app, I3. rewrite seq_S. reflexivity.
    - intros j l Hi. rewrite Hl in Hi. apply in_app_iff in Hi. destruct Hi as [|[E'|[]]]; auto.
      inversion E'; subst. split; auto. exact (complete_level_all _ _ J5).
  Qed.

  Lemma add_levels_inv m : forall st, tree_inv st ->
    exists st' ls, add_levels enum enumD ss coords m st = (Ok tt, st') /\ tree_inv st' /\ t_degree st' = t_degree st + m
      /\ t_levels st' = t_levels st ++ ls.
  Proof.
    induction m as [|m IH]; intros st I; simpl.
    - exists st, []. rewrite app_nil_r. split; [reflexivity|]. split; [auto|]. split; [lia|auto].
    - destruct (add_level_inv st I) as (st1 & l & E & I1 & D1 & L1). rewrite E.
      destruct (IH st1 I1) as (st2 & ls & E2 & I2 & D2 & L2). rewrite E2.
      exists st2, ((S (t_degree st), l) :: ls). split; [reflexivity|]. split; [auto|]. split; [lia|].
      rewrite L2, L1, <- app_assoc. reflexivity.
  Qed.

  Lemma add_levels_add a b st : tree_inv st ->
    snd (add_levels enum enumD ss coords (a + b) st) = snd (add_levels enum enumD ss coords b (snd (add_levels enum enumD ss coords a st))).
  Proof.
    revert st. induction a as [|a IH]; intros st I; [reflexivity|]. simpl.
    destruct (add_level_inv st I) as (st1 & l & E & I1 & D1 & L1). rewrite E. apply IH; auto.
  Qed.

  (** the result of a call *)
  Definition collect (degree : nat) (levels : dict nat tdict) : tdict :=
    fold_left (fun t ld => if (degree <? fst ld) then t else update t (snd ld)) levels [].

  Lemma tree_call_ok st d : tree_inv st ->
    let degree := match d with None => t_degree st | Some d => d end in
    exists st', tree_call enum enumD ss coords st d = (Ok (collect degree (t_levels st')), st') /\ tree_inv st'
      /\ t_degree st' = Nat.max (t_degree st) degree
      /\ st' = snd (add_levels enum enumD ss coords (degree - t_degree st) st).
  Proof.
    intros I degree. unfold tree_call. fold degree.
    destruct (add_levels_inv (degree - t_degree st) st I) as (st' & ls & E & I' & D & L). rewrite E.
    exists st'. split; [reflexivity|]. split; [auto|]. split; [lia|]. reflexivity.
  Qed.

  Lemma update_in (e : tdict) : forall t kv, In kv (update t e) -> In kv t \/ In kv e.
  Proof.
    unfold update. induction e as [|[k v] r IH]; intros t kv Hi; simpl in Hi; auto.
    apply IH in Hi. destruct Hi as [Hi|]; [|right; right; auto]. destruct kv as [k' v']. apply in_dset in Hi.
    simpl in Hi. destruct Hi as [[-> ->]|]; [right; left; auto|auto].
  Qed.
  Lemma update_get (e : tdict) k : forall t, dget ekey_dec k t <> None \/ dget ekey_dec k e <> None ->
    dget ekey_dec k (update t e) <> None.
  Proof.
    unfold update. induction e as [|[k0 v0] r IH]; intros t H; simpl in *; [tauto|].
    apply IH. rewrite dget_dset. destruct (ekey_dec k k0); [left; discriminate|tauto].
  Qed.

  Lemma collect_from degree levels : forall t0,
    let t := fold_left (fun t ld => if (degree <? fst ld) then t else update t (snd ld)) levels t0 in
    (forall kv, In kv t -> In kv t0 \/ exists j l, In (j, l) levels /\ j <= degree /\ In kv l) /\
    (forall k, dget ekey_dec k t0 <> None \/ (exists j l, In (j, l) levels /\ j <= degree /\ dget ekey_dec k l <> None) ->
               dget ekey_dec k t <> None).
  Proof.
    induction levels as [|[j l] r IH]; intros t0; simpl.
    - split; [auto|]. intros k [H|(j & l & [] & _)]; auto.
    - destruct (Nat.ltb_spec degree j) as [Hlt|Hge].
      + destruct (IH t0) as [A B]. split.
        * intros kv Hi. destruct (A kv Hi) as [|(j' & l' & H1 & H2)]; auto. right. exists j', l'. auto.
        * intros k [H|(j' & l' & [E|H1] & H2 & H3)]; [apply B; auto|inversion E; subst; lia|].
          apply B. right. exists j', l'. auto.
      + destruct (IH (update t0 l)) as [A B]. split.
        * intros kv Hi. destruct (A kv Hi) as [H|(j' & l' & H1 & H2)].
          -- apply update_in in H. destruct H; auto. right. exists j, l. auto.
          -- right. exists j', l'. auto.
        * intros k [H|(j' & l' & [E|H1] & H2 & H3)]; apply B.
          -- left. apply update_get; auto.
          -- inversion E; subst. left. apply update_get; auto.
          -- right. exists j', l'. auto.
  Qed.

  Lemma collect_spec st degree : tree_inv st -> degree <= t_degree st ->
    let t := collect degree (t_levels st) in
    (forall kv, In kv t -> exists j, j <= degree /\ entry_ok j kv) /\
    (forall a b x y, nz_index n x a -> nz_index n y b -> x + y <= degree -> dget ekey_dec (ekey a b) t <> None).
  Proof.
    intros (I1 & I2 & I3 & I4) Hle. destruct (collect_from degree (t_levels st) []) as [A B]. split.
    - intros kv Hi. destruct (A kv Hi) as [[]|(j & l & H1 & H2 & H3)]. exists j. split; auto. apply (I4 j l H1); auto.
    - intros a b x y Ha Hb Hd. apply B. right.
      assert (Hj : In (x + y) (map fst (t_levels st))).
      { rewrite I3. apply in_seq. destruct Ha, Hb. lia. }
      apply in_map_iff in Hj. destruct Hj as [[j l] [E Hi]]. simpl in E. subst j.
      exists (x + y), l. split; [auto|]. split; [auto|]. apply (I4 _ _ Hi) with (x := x) (y := y); auto.
  Qed.

  (** any history *)
  Lemma tree_calls_inv calls : forall st, tree_inv st ->
    let st' := tree_calls enum enumD ss coords st calls in
    tree_inv st' /\ t_degree st <= t_degree st' /\ st' = snd (add_levels enum enumD ss coords (t_degree st' - t_degree st) st).
  Proof.
    induction calls as [|c r IH]; intros st I st'; subst st'.
    - simpl. rewrite Nat.sub_diag. auto.
    - destruct (tree_call_ok st c I) as (st1 & E & I1 & D1 & S1).
      assert (Ec : tree_calls enum enumD ss coords st (c :: r) = tree_calls enum enumD ss coords st1 r)
        by (unfold tree_calls; simpl; rewrite E; reflexivity).
      rewrite Ec. destruct (IH st1 I1) as (I2 & D2 & S2). split; [auto|]. split; [lia|].
      set (st2 := tree_calls enum enumD ss coords st1 r) in *.
      replace (t_degree st2 - t_degree st) with ((t_degree st1 - t_degree st) + (t_degree st2 - t_degree st1)) by lia.
      rewrite add_levels_add by auto.
      assert (E1 : snd (add_levels enum enumD ss coords (t_degree st1 - t_degree st) st) = st1).
      { rewrite S1 at 2. do 2 f_equal. lia. }
      rewrite E1. exact S2.
  Qed.

  (** levels beyond the degree are not collected *)
  Lemma collect_app degree l1 l2 : (forall j l, In (j, l) l2 -> degree < j) -> collect degree (l1 ++ l2) = collect degree l1.
  Proof.
    unfold collect. rewrite fold_left_app. generalize (fold_left (fun t ld => if (degree <? fst ld) then t else update t (snd ld)) l1 []).
    induction l2 as [|[j l] r IH]; intros t H; [reflexivity|]. simpl.
    assert (degree < j) by (apply (H j l); left; auto). apply Nat.ltb_lt in H0. rewrite H0. apply IH. intros; eapply H; right; eauto.
  Qed.

  Definition state_at (d : nat) : tree := snd (add_levels enum enumD ss coords d tree_init).

  Lemma state_at_inv d : tree_inv (state_at d) /\ t_degree (state_at d) = d.
  Proof.
    unfold state_at. destruct (add_levels_inv d tree_init tree_init_inv) as (st' & ls & E & I & D & _). rewrite E. auto.
  Qed.

  Lemma collect_state degree d : degree <= d -> collect degree (t_levels (state_at d)) = collect degree (t_levels (state_at degree)).
  Proof.
    intros H. unfold state_at. replace d with (degree + (d - degree)) by lia. rewrite add_levels_add by apply tree_init_inv.
    fold (state_at degree). destruct (state_at_inv degree) as [I D].
    destruct (add_levels_inv (d - degree) (state_at degree) I) as (st' & ls & E & I' & D' & L'). rewrite E. simpl.
    rewrite L'. apply collect_app. intros j l Hi.
    destruct I' as (_ & _ & I3 & _). destruct I as (_ & _ & J3 & _).
    rewrite L', map_app, J3, D in I3. rewrite D', D in I3. rewrite seq_app in I3.
    apply app_inv_head in I3. apply (in_map fst) in Hi. rewrite I3 in Hi. apply in_seq in Hi. simpl in Hi. lia.
  Qed.

  Lemma tree_history calls d : 
    let st := tree_calls enum enumD ss coords tree_init calls in
    let degree := match d with None => t_degree st | Some d => d end in
    fst (tree_call enum enumD ss coords st d) = Ok (collect degree (t_levels (state_at degree))).
  Proof.
    intros st degree.
    destruct (tree_calls_inv calls tree_init tree_init_inv) as (I & _ & S). fold st in I, S.
    rewrite Nat.sub_0_r in S. destruct (tree_call_ok st d I) as (st' & E & I' & D' & S'). rewrite E. simpl. f_equal.
    fold degree in S', D'. fold degree.
    assert (Est : st' = state_at (t_degree st')).
    { unfold state_at. replace (t_degree st') with (t_degree st + (degree - t_degree st)) by lia.
      rewrite add_levels_add by apply tree_init_inv. cbn [t_degree tree_init] in S. rewrite <- S. exact S'. }
    rewrite Est. apply collect_state. lia.
  Qed.

  Lemma history_degree calls :
    t_degree (tree_calls enum enumD ss coords tree_init calls)
    = fold_right Nat.max 0 (map (fun c => match c with None => 0 | Some d => d end) calls).
  Proof.
    assert (G : forall st, tree_inv st -> t_degree (tree_calls enum enumD ss coords st calls)
       = Nat.max (t_degree st) (fold_right Nat.max 0 (map (fun c => match c with None => 0 | Some d => d end) calls))).
    { induction calls as [|c r IH]; intros st I; simpl; [lia|].
      destruct (tree_call_ok st c I) as (st1 & E & I1 & D1 & S1). rewrite E. simpl snd.
      change (t_degree (tree_calls enum enumD ss coords st1 r) =
        Nat.max (t_degree st) (Nat.max match c with Some d => d | None => 0 end
          (fold_right Nat.max 0 (map (fun c0 => match c0 with Some d => d | None => 0 end) r)))).
      rewrite IH by auto. destruct c; lia. }
    rewrite G by apply tree_init_inv. reflexivity.
  Qed.
End Build.
