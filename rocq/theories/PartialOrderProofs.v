(** Proofs about PartialOrderModel. *)
From Coq Require Import List Arith ZArith Bool String Lia Permutation.
From Verif Require Import PyBase PyBaseFacts PartialOrderModel PartialOrderSpec.
Import ListNotations.
Open Scope list_scope.

Lemma in_coords_true coords v : in_coords coords v = true -> exists c, v = VCoord c /\ In c coords.
Proof.
  destruct v; simpl; try discriminate. unfold lmem. destruct in_dec; [|discriminate].
  intros _. eauto.
Qed.
Lemma in_coords_in coords c : In c coords -> in_coords coords (VCoord c) = true.
Proof. intros H. simpl. unfold lmem. destruct in_dec; tauto. Qed.

Lemma cindex_in c l : In c l -> exists i, cindex c l = Ok i.
Proof.
  induction l as [|d r IH]; simpl; [tauto|]. intros H.
  destruct (string_dec c d); [eauto|]. destruct IH as [i E]; [destruct H; congruence|].
  rewrite E. simpl. eauto.
Qed.
Lemma cindex_nth c l i : cindex c l = Ok i -> nth_error l i = Some c.
Proof.
  revert i. induction l as [|d r IH]; simpl; [discriminate|]. intros i.
  destruct (string_dec c d) as [->|n]; [intros E; inversion E; reflexivity|].
  destruct (cindex c r); simpl; [|discriminate]. intros E. inversion E; subst. simpl. auto.
Qed.

Lemma add_at (f : string -> Z) c z coords i : NoDup coords -> cindex c coords = Ok i ->
  set_nth i (nth i (map f coords) 0 + z)%Z (map f coords)
  = map (fun d => (f d + if string_dec d c then z else 0)%Z) coords.
Proof.
  revert i. induction coords as [|d r IH]; simpl; [discriminate|]. intros i Hn.
  inversion Hn; subst. destruct (string_dec c d) as [->|n].
  - intros E. inversion E; subst. simpl. destruct (string_dec d d); [|congruence]. f_equal.
    apply map_ext_in. intros a Ha. destruct (string_dec a d); [subst; tauto|lia].
  - destruct (cindex c r) eqn:Er; simpl; [|discriminate]. intros E. inversion E; subst. simpl.
    destruct (string_dec d c); [congruence|]. rewrite IH by auto. f_equal. lia.
Qed.

Lemma repeat_map {A} (x : Z) (l : list A) : repeat x (List.length l) = map (fun _ => x) l.
Proof. induction l; simpl; congruence. Qed.

Lemma add_couple_at coords f v c z : NoDup coords -> In c coords ->
  (v = VTuple [VCoord c; VInt z] \/ v = VList [VCoord c; VInt z]) ->
  add_couple coords (map f coords) v = Ok (map (fun d => (f d + if string_dec d c then z else 0)%Z) coords).
Proof.
  intros Hn Hc Hv. destruct (cindex_in _ _ Hc) as [i Hi].
  destruct Hv; subst v; unfold add_couple, unpack2; rewrite Hi; simpl; rewrite add_at with (c := c) by auto; reflexivity.
Qed.

Lemma add_couples coords l : NoDup coords ->
  (forall v c z, In (v, (c, z)) l -> In c coords /\ (v = VTuple [VCoord c; VInt z] \/ v = VList [VCoord c; VInt z])) ->
  forall f, foldM (add_couple coords) (map f coords) (map fst l)
            = Ok (map (fun d => (f d + order_in d (map snd l))%Z) coords).
Proof.
  intros Hn. induction l as [|[v [c z]] r IH]; intros H f; simpl.
  - f_equal. apply map_ext. intros; lia.
  - destruct (H v c z (or_introl eq_refl)) as [Hc Hv].
    rewrite (add_couple_at _ _ _ _ _ Hn Hc Hv). simpl.
    rewrite IH by (intros; apply H; right; auto). f_equal. apply map_ext. intros; lia.
Qed.

Lemma forallb_map_VInt zs : forallb is_int (map VInt zs) = true.
Proof. induction zs; simpl; auto. Qed.
Lemma ints_of_map zs : ints_of (map VInt zs) = zs.
Proof. induction zs; simpl; congruence. Qed.
Lemma forallb_in_coords coords cs : (forall c, In c cs -> In c coords) ->
  forallb (in_coords coords) (map VCoord cs) = true.
Proof.
  intros H. apply forallb_forall. intros v Hv. apply in_map_iff in Hv. destruct Hv as [c [<- Hc]].
  apply in_coords_in; auto.
Qed.

Lemma count_in_spec cs d : count_in (map VCoord cs) d = order_in d (map (fun c => (c, 1%Z)) cs).
Proof.
  induction cs as [|c r IH]; [reflexivity|]. unfold count_in in *. cbn [map order_in].
  rewrite <- IH. cbn [filter]. destruct (string_dec d c); cbn [List.length]; lia.
Qed.

Lemma couples_ok coords l :
  (forall v c z, In (v, (c, z)) l -> In c coords /\ (v = VTuple [VCoord c; VInt z] \/ v = VList [VCoord c; VInt z])) ->
  exists bs, couples_tests coords (map fst l) = Some bs /\ forallb (fun b => b) bs = true.
Proof.
  induction l as [|[v [c z]] r IH]; intros H; simpl; [eauto|].
  destruct (H v c z (or_introl eq_refl)) as [Hc Hv].
  destruct IH as [bs [E1 E2]]; [intros; apply H; right; auto|].
  rewrite E1. destruct Hv; subst v; unfold couple_ok, unpack2; rewrite in_coords_in by auto;
    simpl; exists (true :: bs); split; auto.
Qed.

Lemma pod_init_describes coords v o : NoDup coords -> describes coords v o ->
  pod_init coords v = Ok (mkPod coords o).
Proof.
  intros Hn H. destruct H as [zs Hl|c z Hc|l H Hne|cs v Hv Hc].
  - unfold pod_init; simpl. rewrite map_length, Hl, Nat.eqb_refl, forallb_map_VInt. simpl.
    rewrite ints_of_map. reflexivity.
  - unfold pod_init. simpl is_as_tuple. cbn [bind]. rewrite andb_false_r. cbn [bind is_as_sequence].
    unfold is_as_couples, couple_ok, unpack2. rewrite in_coords_in by auto. cbn [andb is_int bind].
    unfold set_from_couples. rewrite repeat_map, (add_couple_at coords (fun _ => 0%Z) _ c z) by auto.
    cbn [bind]. do 2 f_equal. apply map_ext. intros d. simpl. lia.
  - unfold pod_init. simpl is_as_tuple. cbn [bind is_as_sequence].
    destruct (couples_ok _ _ H) as [bs [E1 E2]].
    assert (E : is_as_couples coords (VList (map fst l)) = true).
    { destruct l as [|p l]; [congruence|]. unfold is_as_couples. simpl map. change (fst p :: map fst l) with (map fst (p :: l)).
      rewrite E1. exact E2. }
    rewrite E. unfold set_from_couples. rewrite repeat_map.
    rewrite (add_couples coords l Hn H (fun _ => 0%Z)). cbn [bind]. do 2 f_equal.
  - assert (Hitems : set_from_sequence coords (map VCoord cs)
        = map (fun d => order_in d (map (fun c => (c, 1%Z)) cs)) coords).
    { unfold set_from_sequence. apply map_ext. intros. apply count_in_spec. }
    rewrite <- Hitems.
    destruct Hv; subst v; unfold pod_init.
    + cbn [is_as_tuple bind is_as_sequence]. rewrite forallb_in_coords by auto. cbn [bind].
      destruct cs as [|c cs].
      * simpl map. destruct coords; reflexivity.
      * simpl map at 1 2. simpl forallb at 1. rewrite andb_false_r.
        assert (E : is_as_couples coords (VTuple (map VCoord (c :: cs))) = false).
        { unfold is_as_couples, couple_ok, unpack2. simpl. destruct cs as [|c2 [|]]; simpl; auto.
          rewrite andb_false_r. reflexivity. }
        rewrite E. reflexivity.
    + cbn [is_as_tuple bind is_as_sequence]. rewrite forallb_in_coords by auto. cbn [bind].
      assert (E : is_as_couples coords (VList (map VCoord cs)) = false) by (destruct cs; reflexivity).
      rewrite E. reflexivity.
Qed.

Lemma forallb_ints l : forallb is_int l = true -> exists zs, l = map VInt zs.
Proof.
  induction l as [|v r IH]; simpl; [exists []; auto|]. intros H. apply andb_prop in H. destruct H as [H1 H2].
  destruct v; try discriminate. destruct (IH H2) as [zs ->]. exists (z :: zs). reflexivity.
Qed.
Lemma forallb_coords coords l : forallb (in_coords coords) l = true ->
  exists cs, l = map VCoord cs /\ forall c, In c cs -> In c coords.
Proof.
  induction l as [|v r IH]; simpl; [exists []; simpl; tauto|]. intros H. apply andb_prop in H. destruct H as [H1 H2].
  destruct (in_coords_true _ _ H1) as [c [-> Hc]]. destruct (IH H2) as [cs [-> Hcs]].
  exists (c :: cs). split; [reflexivity|]. intros d [<-|Hd]; auto.
Qed.
Lemma couple_ok_true coords v : couple_ok coords v = Some true ->
  exists c z, In c coords /\ (v = VTuple [VCoord c; VInt z] \/ v = VList [VCoord c; VInt z]).
Proof.
  unfold couple_ok. destruct (unpack2 v) as [[a b]|] eqn:E; [|discriminate]. intros H. inversion H as [H1].
  apply andb_prop in H1. destruct H1 as [H1 H2]. destruct (in_coords_true _ _ H1) as [c [-> Hc]].
  destruct b; try discriminate. exists c, z. split; auto.
  unfold unpack2 in E. destruct v as [| |l|l]; try discriminate;
    destruct l as [|x [|y [|]]]; try discriminate; inversion E; subst; auto.
Qed.
Lemma couples_tests_true coords l bs : couples_tests coords l = Some bs -> forallb (fun b => b) bs = true ->
  exists l', l = map fst l' /\
   (forall v c z, In (v, (c, z)) l' -> In c coords /\ (v = VTuple [VCoord c; VInt z] \/ v = VList [VCoord c; VInt z])).
Proof.
  revert bs. induction l as [|v r IH]; simpl; intros bs E H.
  - exists []. simpl. tauto.
  - destruct (couple_ok coords v) as [b|] eqn:Ev; [|discriminate].
    destruct (couples_tests coords r) as [bs'|] eqn:Er; [|discriminate]. inversion E; subst. simpl in H.
    apply andb_prop in H. destruct H as [-> H]. destruct (couple_ok_true _ _ Ev) as [c [z [Hc Hv]]].
    destruct (IH bs' eq_refl H) as [l' [-> Hl]]. exists ((v, (c, z)) :: l'). split; [reflexivity|].
    intros v' c' z' [E'|Hi]; [inversion E'; subst; auto|auto].
Qed.

Lemma pod_init_total coords v : NoDup coords ->
  (exists o, describes coords v o) \/ pod_init coords v = Err TypeError.
Proof.
  intros Hn. unfold pod_init. destruct v as [z|c|l|l]; simpl is_as_tuple; cbn [bind]; auto.
  - simpl is_as_sequence. cbn [bind].
    destruct (Nat.eqb_spec (List.length l) (List.length coords)) as [El|El];
      [destruct (forallb is_int l) eqn:Ei|]; simpl andb; cbv iota.
    + left. destruct (forallb_ints _ Ei) as [zs ->]. rewrite map_length in El. exists zs. constructor; auto.
    + destruct (is_as_couples coords (VTuple l)) eqn:Ec.
      { left. unfold is_as_couples in Ec. destruct (couple_ok coords (VTuple l)) as [[]|] eqn:E; try discriminate.
        destruct (couple_ok_true _ _ E) as [c [z [Hc [Hv|Hv]]]]; [|discriminate]. rewrite Hv. eexists. constructor; auto. }
      destruct (forallb (in_coords coords) l) eqn:Es; auto.
      left. destruct (forallb_coords _ _ Es) as [cs [-> Hcs]]. eexists. apply d_sequence with (cs := cs); auto.
    + destruct (is_as_couples coords (VTuple l)) eqn:Ec.
      { left. unfold is_as_couples in Ec. destruct (couple_ok coords (VTuple l)) as [[]|] eqn:E; try discriminate.
        destruct (couple_ok_true _ _ E) as [c [z [Hc [Hv|Hv]]]]; [|discriminate]. rewrite Hv. eexists. constructor; auto. }
      destruct (forallb (in_coords coords) l) eqn:Es; auto.
      left. destruct (forallb_coords _ _ Es) as [cs [-> Hcs]]. eexists. apply d_sequence with (cs := cs); auto.
  - cbn [is_as_sequence bind]. destruct (is_as_couples coords (VList l)) eqn:Ec.
    + left. unfold is_as_couples in Ec. destruct l as [|v r]; [discriminate|].
      destruct (couples_tests coords (v :: r)) as [bs|] eqn:E; [|discriminate].
      destruct (couples_tests_true _ _ _ E Ec) as [l' [El H]]. rewrite El.
      eexists. apply d_couples; auto. intros ->. discriminate.
    + destruct (forallb (in_coords coords) l) eqn:Es; auto.
      left. destruct (forallb_coords _ _ Es) as [cs [-> Hcs]]. eexists. apply d_sequence with (cs := cs); auto.
Qed.

Lemma pod_init_iff coords v o : NoDup coords ->
  (pod_init coords v = Ok (mkPod coords o) <-> describes coords v o).
Proof.
  intros Hn. split; [|apply pod_init_describes; auto]. intros E.
  destruct (pod_init_total coords v Hn) as [[o' H]|H]; [|congruence].
  assert (o = o') by (rewrite (pod_init_describes _ _ _ Hn H) in E; congruence). subst; auto.
Qed.

Lemma pod_init_error coords v : NoDup coords ->
  (forall o, ~ describes coords v o) -> pod_init coords v = Err TypeError.
Proof. intros Hn H. destruct (pod_init_total coords v Hn) as [[o Ho]|]; auto. destruct (H o Ho). Qed.

(** round trips *)
Lemma order_in_combine coords zs : NoDup coords -> List.length zs = List.length coords ->
  map (fun d => order_in d (combine coords zs)) coords = zs.
Proof.
  revert zs. induction coords as [|c r IH]; intros zs Hn Hl.
  { destruct zs; simpl in *; congruence. }
  destruct zs as [|z zs]; [discriminate|]. inversion Hn; subst. simpl.
  destruct (string_dec c c); [|congruence].
  assert (Hz : order_in c (combine r zs) = 0%Z).
  { clear - H1. revert zs. induction r as [|d r IH]; intros zs; [reflexivity|]. destruct zs; [reflexivity|]. simpl in *.
    destruct (string_dec c d) as [->|]; [destruct H1; auto|]. rewrite IH; auto. }
  rewrite Hz. f_equal; [lia|]. transitivity (map (fun d => order_in d (combine r zs)) r); [|apply IH; auto]. apply map_ext_in. intros d Hd.
  destruct (string_dec d c); [subst; tauto|]. reflexivity.
Qed.

Lemma order_in_app c l1 l2 : order_in c (l1 ++ l2) = (order_in c l1 + order_in c l2)%Z.
Proof. induction l1 as [|[d z] r IH]; simpl; lia. Qed.
Lemma order_in_repeat d c n : order_in d (map (fun c => (c, 1%Z)) (repeat c n)) = if string_dec d c then Z.of_nat n else 0%Z.
Proof. induction n; simpl; destruct (string_dec d c); lia. Qed.

Lemma order_in_sequence d coords zs : (forall z, In z zs -> (0 <= z)%Z) ->
  order_in d (map (fun c => (c, 1%Z))
    (List.concat (map (fun ca => if (0 <? snd ca)%Z then repeat (fst ca) (Z.to_nat (snd ca)) else [])
       (combine coords zs)))) = order_in d (combine coords zs).
Proof.
  revert zs. induction coords as [|c r IH]; intros zs H; [reflexivity|]. destruct zs as [|z zs]; [reflexivity|].
  simpl. rewrite map_app, order_in_app, IH by (intros; apply H; right; auto). f_equal.
  assert (0 <= z)%Z by (apply H; left; auto).
  destruct (Z.ltb_spec 0 z); simpl.
  - rewrite order_in_repeat. destruct string_dec; lia.
  - destruct string_dec; lia.
Qed.

Lemma as_sequence_in p c : In c (as_sequence p) -> In c (p_coords p).
Proof.
  unfold as_sequence, as_couples. intros H. apply in_concat in H. destruct H as [l [H1 H2]].
  apply in_map_iff in H1. destruct H1 as [[d z] [<- H1]]. simpl in H2. apply in_combine_l in H1.
  destruct (0 <? z)%Z; [|destruct H2]. apply repeat_spec in H2. subst; auto.
Qed.

Lemma roundtrip_tuple p : List.length (p_tuple p) = List.length (p_coords p) -> NoDup (p_coords p) ->
  pod_new p (tuple_value p) = Ok p.
Proof.
  intros Hl Hn. unfold pod_new. destruct p as [cs o]. simpl in *. apply pod_init_describes; auto. constructor; auto.
Qed.
Lemma roundtrip_couples p : List.length (p_tuple p) = List.length (p_coords p) -> NoDup (p_coords p) ->
  pod_new p (couples_value p) = Ok p.
Proof.
  intros Hl Hn. unfold pod_new. destruct p as [cs o]. simpl in *. apply pod_init_iff; auto.
  unfold couples_value, as_couples. simpl. destruct cs as [|c cs].
  - destruct o; [|discriminate]. simpl. apply d_sequence with (cs := []); simpl; tauto.
  - remember (combine (c :: cs) o) as l eqn:El.
    set (L := map (fun ca : string * Z => (VTuple [VCoord (fst ca); VInt (snd ca)], ca)) l).
    assert (E1 : map snd L = l) by (unfold L; rewrite map_map; simpl; apply map_id).
    assert (E2 : map fst L = map (fun ca => VTuple [VCoord (fst ca); VInt (snd ca)]) l)
      by (unfold L; rewrite map_map; reflexivity).
    rewrite <- E2.
    replace o with (map (fun d => order_in d (map snd L)) (c :: cs))
      by (rewrite E1, El; apply order_in_combine; auto).
    apply d_couples.
    + intros v d z H. unfold L in H. apply in_map_iff in H. destruct H as [[d' z'] [E H]]. inversion E; subst. simpl.
      split; auto. apply in_combine_l in H. auto.
    + unfold L. subst l. destruct o; discriminate.
Qed.
Lemma roundtrip_sequence p : List.length (p_tuple p) = List.length (p_coords p) -> NoDup (p_coords p) ->
  (forall z, In z (p_tuple p) -> (0 <= z)%Z) ->
  pod_new p (sequence_value p) = Ok p.
Proof.
  intros Hl Hn Hp. unfold pod_new. pose proof (as_sequence_in p) as Hin. destruct p as [cs o]. simpl in *.
  apply pod_init_iff; auto.
  replace o with (map (fun d => order_in d (map (fun c => (c, 1%Z)) (as_sequence (mkPod cs o)))) cs) at 2.
  { apply d_sequence; auto. }
  unfold as_sequence, as_couples. simpl.
  transitivity (map (fun d => order_in d (combine cs o)) cs); [|apply order_in_combine; auto].
  apply map_ext. intros d. apply order_in_sequence; auto.
Qed.

(** a constructed object has one order per coordinate *)
Lemma describes_length coords v o : describes coords v o -> List.length o = List.length coords.
Proof. intros []; auto; apply map_length. Qed.

Lemma pod_eqb_true p q : pod_eqb p q = true <-> p = q.
Proof.
  unfold pod_eqb. destruct p as [c1 t1], q as [c2 t2]; simpl.
  destruct (list_eq_dec Z.eq_dec t1 t2), (list_eq_dec string_dec c1 c2); simpl; split; intros H; try congruence.
Qed.

Lemma negative_lost coords o : NoDup coords -> List.length o = List.length coords ->
  (exists z, In z o /\ (z < 0)%Z) ->
  exists q, pod_new (mkPod coords o) (sequence_value (mkPod coords o)) = Ok q /\ q <> mkPod coords o.
Proof.
  intros Hn Hl [z [Hz Hneg]].
  set (p := mkPod coords o). pose proof (as_sequence_in p) as Hin.
  exists (mkPod coords (map (fun d => order_in d (map (fun c => (c, 1%Z)) (as_sequence p))) coords)).
  split.
  - apply pod_init_describes; auto. apply d_sequence with (cs := as_sequence p); auto.
  - intros E. injection E as E. rewrite <- E in Hz. apply in_map_iff in Hz. destruct Hz as [d [Hd _]].
    enough (0 <= order_in d (map (fun c => (c, 1%Z)) (as_sequence p)))%Z by lia.
    generalize (as_sequence p). intros l. clear. induction l; simpl; [lia|]. destruct string_dec; lia.
Qed.

(** ** all_of_degree *)
Lemma set_nth_length {A} i (v : A) l : List.length (set_nth i v l) = List.length l.
Proof. revert i. induction l; destruct i; simpl; auto. Qed.

Lemma sum_set_nth i l z : i < List.length l ->
  fold_right Z.add 0%Z (set_nth i (nth i l 0 + z)%Z l) = (fold_right Z.add 0 l + z)%Z.
Proof.
  revert i. induction l as [|a l IH]; simpl; intros i H; [lia|]. destruct i; simpl; [lia|].
  rewrite IH by lia. lia.
Qed.

Lemma set_add_in x y s : In y (set_add x s) <-> y = x \/ In y s.
Proof.
  unfold set_add. destruct in_dec as [H|H].
  - split; auto. intros [->|]; auto.
  - rewrite in_app_iff. simpl. intuition.
Qed.
Lemma set_add_nodup x s : NoDup s -> NoDup (set_add x s).
Proof.
  intros H. unfold set_add. destruct in_dec; auto.
  apply NoDup_rev in H. rewrite <- (rev_involutive (s ++ [x])). apply NoDup_rev. rewrite rev_app_distr. simpl.
  constructor; auto. rewrite <- in_rev. auto.
Qed.

Lemma inner_in father moves : forall sons y,
  In y (fold_left (fun sons move => set_add (son_of father move) sons) moves sons)
  <-> In y sons \/ exists m, In m moves /\ y = son_of father m.
Proof.
  induction moves as [|m r IH]; intros sons y; simpl.
  - split; auto. intros [|[m [[] _]]]; auto.
  - rewrite IH, set_add_in. split.
    + intros [[->|H]|[m' [H1 H2]]]; eauto.
    + intros [H|[m' [[<-|H1] H2]]]; eauto.
Qed.
Lemma inner_nodup father moves : forall sons, NoDup sons ->
  NoDup (fold_left (fun sons move => set_add (son_of father move) sons) moves sons).
Proof. induction moves; intros; simpl; auto. apply IHmoves, set_add_nodup; auto. Qed.

Lemma next_in nb fathers y :
  In y (next_generation nb fathers) <-> exists f m, In f fathers /\ 1 <= m < nb /\ y = son_of f m.
Proof.
  unfold next_generation.
  assert (G : forall sons, In y (fold_left (fun sons father =>
      fold_left (fun sons move => set_add (son_of father move) sons) (seq 1 (nb - 1)) sons) fathers sons)
      <-> In y sons \/ exists f m, In f fathers /\ 1 <= m < nb /\ y = son_of f m).
  { induction fathers as [|f r IH]; intros sons; simpl.
    - split; auto. intros [|[f [m [[] _]]]]; auto.
    - rewrite IH, inner_in. split.
      + intros [[H|[m [H1 H2]]]|[f' [m [H1 H2]]]]; eauto 6.
        apply in_seq in H1. right. exists f, m. split; [auto|]. split; [lia|auto].
      + intros [H|[f' [m [[<-|H1] [H2 H3]]]]]; eauto 6.
        left. right. exists m. split; auto. apply in_seq. lia. }
  rewrite G. simpl. tauto.
Qed.
Lemma next_nodup nb fathers : NoDup (next_generation nb fathers).
Proof.
  unfold next_generation.
  assert (G : forall sons, NoDup sons -> NoDup (fold_left (fun sons father =>
      fold_left (fun sons move => set_add (son_of father move) sons) (seq 1 (nb - 1)) sons) fathers sons)).
  { induction fathers; intros; simpl; auto. apply IHfathers, inner_nodup; auto. }
  apply G. constructor.
Qed.

(** the tuples of generation [k]: k units moved from the first coordinate to the others *)
Definition at_generation (n : nat) (order k : Z) (o : list Z) : Prop :=
  exists r, o = (order - k)%Z :: r /\ multi_index n k r.

Lemma nonneg_sum l : (forall z, In z l -> (0 <= z)%Z) -> (0 <= fold_right Z.add 0%Z l)%Z.
Proof. induction l; simpl; intros H; [lia|]. assert (0 <= a)%Z by auto. assert (0 <= fold_right Z.add 0 l)%Z by auto. lia. Qed.

Lemma zero_sum l : (forall z, In z l -> (0 <= z)%Z) -> fold_right Z.add 0%Z l = 0%Z -> l = repeat 0%Z (List.length l).
Proof.
  induction l; simpl; intros H E; auto. assert (0 <= a)%Z by auto. assert (0 <= fold_right Z.add 0 l)%Z by (apply nonneg_sum; auto).
  rewrite <- IHl; auto; [f_equal|]; lia.
Qed.

Lemma positive_entry l : (forall z, In z l -> (0 <= z)%Z) -> (0 < fold_right Z.add 0%Z l)%Z ->
  exists i, i < List.length l /\ (0 < nth i l 0)%Z.
Proof.
  induction l as [|a l IH]; simpl; intros H E; [lia|]. assert (0 <= a)%Z by auto.
  destruct (Z.eq_dec a 0) as [->|n].
  - destruct IH as [i [H1 H2]]; auto. exists (S i). split; [lia|auto].
  - exists 0. split; lia.
Qed.

Lemma son_of_cons a r m : 1 <= m -> son_of (a :: r) m = (a - 1)%Z :: set_nth (m - 1) (nth (m - 1) r 0 + 1)%Z r.
Proof. intros H. destruct m; [lia|]. unfold son_of. simpl. rewrite Nat.sub_0_r. reflexivity. Qed.

Lemma in_set_nth (l : list Z) i v z : In z (set_nth i v l) -> z = v \/ In z l.
Proof. revert i. induction l; destruct i; simpl; intuition. apply IHl in H0. intuition. Qed.

Lemma set_nth_twice (l : list Z) i a b : set_nth i a (set_nth i b l) = set_nth i a l.
Proof. revert i. induction l; destruct i; simpl; congruence. Qed.
Lemma set_nth_same (l : list Z) i : set_nth i (nth i l 0%Z) l = l.
Proof. revert i. induction l; destruct i; simpl; congruence. Qed.
Lemma nth_set_nth (l : list Z) i v : i < List.length l -> nth i (set_nth i v l) 0%Z = v.
Proof. revert i. induction l; destruct i; simpl; intros; auto; try lia. apply IHl; lia. Qed.
Lemma nth_nonneg l i : (forall z, In z l -> (0 <= z)%Z) -> (0 <= nth i l 0)%Z.
Proof. revert i. induction l; destruct i; simpl; intros; auto; lia. Qed.

Lemma generation_step n order k fathers : (0 <= k)%Z ->
  (forall o, In o fathers <-> at_generation n order k o) ->
  forall o, In o (next_generation (S n) fathers) <-> at_generation n order (k + 1) o.
Proof.
  intros Hk H o. rewrite next_in. split.
  - intros [f [m [Hf [Hm ->]]]]. apply H in Hf. destruct Hf as [r [-> [Hl [Hp Hs]]]].
    rewrite son_of_cons by lia. eexists. split; [f_equal; lia|]. split; [|split].
    + rewrite set_nth_length; auto.
    + intros z Hz. apply in_set_nth in Hz. destruct Hz as [->|Hz]; auto.
      pose proof (nth_nonneg r (m - 1) Hp). lia.
    + rewrite sum_set_nth by lia. lia.
  - intros [r [-> [Hl [Hp Hs]]]].
    destruct (positive_entry r Hp) as [i [Hi Hpos]]; [lia|].
    exists ((order - k)%Z :: set_nth i (nth i r 0 + -1)%Z r), (S i). split; [|split].
    + apply H. eexists. split; [reflexivity|]. split; [|split].
      * rewrite set_nth_length; auto.
      * intros z Hz. apply in_set_nth in Hz. destruct Hz as [->|Hz]; auto. lia.
      * rewrite sum_set_nth by lia. lia.
    + lia.
    + rewrite son_of_cons by lia. f_equal; [lia|]. replace (S i - 1) with i by lia.
      rewrite nth_set_nth, set_nth_twice by auto.
      replace (nth i r 0 + -1 + 1)%Z with (nth i r 0%Z) by lia. symmetry. apply set_nth_same.
Qed.

Lemma at_generation_index n order k o : (0 <= k)%Z -> (k <= order)%Z -> at_generation n order k o -> multi_index (S n) order o.
Proof.
  intros H0 H1 [r [-> [Hl [Hp Hs]]]]. split; [|split]; simpl; auto; [|lia].
  intros z [<-|Hz]; [lia|auto].
Qed.

Lemma index_at_generation n order o : multi_index (S n) order o ->
  exists k, (0 <= k <= order)%Z /\ at_generation n order k o.
Proof.
  intros [Hl [Hp Hs]]. destruct o as [|a r]; [discriminate|]. simpl in *. assert (0 <= a)%Z by auto.
  assert (0 <= fold_right Z.add 0 r)%Z by (apply nonneg_sum; auto).
  exists (order - a)%Z. split; [lia|]. exists r. split; [f_equal; lia|]. split; [|split]; auto. lia.
Qed.

Lemma at_generation_len n order k o : at_generation n order k o -> List.length o = S n.
Proof. intros [r [-> [H _]]]. simpl. congruence. Qed.

Lemma mapM_pods coords l : (forall o, In o l -> List.length o = List.length coords) ->
  mapM (fun o => pod_init coords (VTuple (map VInt o))) l = Ok (map (mkPod coords) l).
Proof.
  induction l as [|o r IH]; intros H; [reflexivity|]. simpl mapM.
  assert (E : pod_init coords (VTuple (map VInt o)) = Ok (mkPod coords o)).
  { unfold pod_init; simpl. rewrite map_length, (H o (or_introl eq_refl)), Nat.eqb_refl, forallb_map_VInt. simpl.
    rewrite ints_of_map. reflexivity. }
  rewrite E. cbn [bind]. rewrite IH by (intros; apply H; right; auto). reflexivity.
Qed.

Section Enum.
  Variable enum : list (list Z) -> list (list Z).
  Hypothesis enum_perm : forall l, Permutation (enum l) l.

  Lemma enum_in l x : In x (enum l) <-> In x l.
  Proof. split; apply Permutation_in; [|symmetry]; auto. Qed.

  Lemma generations_spec coords order n : List.length coords = S n -> forall fuel k fathers,
    (0 <= k)%Z -> Z.to_nat (order + 1 - k) < fuel -> NoDup fathers ->
    (forall o, In o fathers <-> at_generation n order k o) ->
    exists l, generations enum coords order fuel k fathers = Ok (map (mkPod coords) l) /\ NoDup l
      /\ forall o, In o l <-> exists j, (k <= j <= order)%Z /\ at_generation n order j o.
  Proof.
    intros Hc. induction fuel as [|fuel IH]; intros k fathers Hk Hf Hn H; [lia|]. simpl.
    destruct (Z.ltb_spec order k) as [Hlt|Hge].
    - exists []. split; [reflexivity|]. split; [constructor|]. intros o. simpl. split; [tauto|].
      intros [j [Hj _]]. lia.
    - assert (H' : forall o, In o (enum fathers) <-> at_generation n order k o) by (intros; rewrite enum_in; auto).
      rewrite mapM_pods.
      2:{ intros o Ho. apply H' in Ho. rewrite Hc. eapply at_generation_len; eauto. }
      cbn [bind]. rewrite Hc.
      destruct (IH (k + 1)%Z (next_generation (S n) (enum fathers))) as [l [E [Hl1 Hl2]]];
        [lia|lia|apply next_nodup|apply generation_step; auto|].
      rewrite E. cbn [bind]. exists (enum fathers ++ l). rewrite map_app. split; [reflexivity|]. split.
      + assert (Hen : NoDup (enum fathers)) by (eapply Permutation_NoDup; [symmetry; apply enum_perm|auto]).
        assert (Hdis : forall o, In o (enum fathers) -> ~ In o l).
        { intros o Ho Ho'. apply H' in Ho. apply Hl2 in Ho'. destruct Ho' as [j [Hj Ho']].
          destruct Ho as [r [-> _]], Ho' as [r' [E' _]]. injection E' as E' _. lia. }
        clear - Hen Hdis Hl1. induction (enum fathers) as [|a r IHr]; simpl; auto.
        inversion Hen; subst. constructor.
        * rewrite in_app_iff. intros [|Ha]; [tauto|]. apply (Hdis a); simpl; auto.
        * apply IHr; auto. intros o Ho. apply Hdis. simpl; auto.
      + intros o. rewrite in_app_iff, H', Hl2. split.
        * intros [Ho|[j [Hj Ho]]]; [exists k; split; [lia|auto]|exists j; split; [lia|auto]].
        * intros [j [Hj Ho]]. destruct (Z.eq_dec j k) as [->|]; auto. right. exists j. split; [lia|auto].
  Qed.

  Lemma all_of_degree_spec coords order : coords <> [] ->
    exists l, all_of_degree enum coords order = Ok (map (mkPod coords) l) /\ NoDup l
      /\ forall o, In o l <-> multi_index (List.length coords) order o.
  Proof.
    intros Hc. destruct coords as [|c r]; [congruence|]. unfold all_of_degree.
    destruct (generations_spec (c :: r) order (List.length r) eq_refl (S (S (Z.to_nat order))) 0%Z
                [order :: repeat 0%Z (List.length r)]) as [l [E [H1 H2]]].
    - lia.
    - lia.
    - repeat constructor. simpl; tauto.
    - intros o. simpl. split.
      + intros [<-|[]]. eexists. split; [f_equal; lia|]. split; [apply repeat_length|]. split.
        * intros z Hz. apply repeat_spec in Hz. lia.
        * clear. induction (List.length r); simpl; lia.
      + intros [r' [-> [Hl [Hp Hs]]]]. left. f_equal; [lia|]. rewrite (zero_sum r') by auto. rewrite Hl; reflexivity.
    - exists l. split; [exact E|]. split; [exact H1|]. intros o. rewrite H2. split.
      + intros [j [Hj Ho]]. simpl. eapply at_generation_index; [| |exact Ho]; lia.
      + intros Ho. simpl in Ho. apply index_at_generation in Ho. exact Ho.
  Qed.
End Enum.
