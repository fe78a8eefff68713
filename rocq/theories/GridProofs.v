From Coq Require Import List Arith ZArith Bool String Lia Ring Field.
From Verif Require Import PyBase PyBaseFacts Scalars FieldFacts GridModel GridSpec.
Import ListNotations.
Open Scope list_scope.

Lemma pos_of_nth c l k : pos_of c l = Some k -> nth_error l k = Some c.
Proof.
  revert k. induction l as [|d l IH]; intros k; simpl; [discriminate|].
  destruct (string_dec c d) as [->|].
  - intros E; inversion E; reflexivity.
  - destruct (pos_of c l); simpl; intros E; inversion E; subst. simpl. auto.
Qed.
Lemma pos_of_In c l : In c l -> exists k, pos_of c l = Some k /\ k < List.length l.
Proof.
  induction l as [|d l IH]; simpl; [tauto|]. intros H. destruct (string_dec c d) as [->|N].
  - exists 0. split; auto. lia.
  - destruct H as [->|H]; [congruence|]. destruct (IH H) as (k & E & L). rewrite E. exists (S k). split; auto. lia.
Qed.
Lemma pos_of_nodup l k c : NoDup l -> nth_error l k = Some c -> pos_of c l = Some k.
Proof.
  intros ND. revert k. induction ND as [|d l N ND IH]; intros k E; [destruct k; discriminate|].
  destruct k as [|k]; simpl in E.
  - inversion E; subst. simpl. destruct (string_dec c c); congruence.
  - simpl. destruct (string_dec c d) as [->|]; [exfalso; apply N; eapply nth_error_In; eauto|].
    rewrite (IH k E). reflexivity.
Qed.

Lemma shifted_0 n : shifted n 0 = arange_int n.
Proof.
  unfold shifted, arange_int. apply map_ext_in. intros i Hi. apply in_seq in Hi.
  rewrite Z.add_0_r. apply Z.mod_small. lia.
Qed.

Section Idx.
  Variables (coords : list string) (shape : list nat).
  Hypothesis ND : NoDup coords.
  Hypothesis LEN : List.length shape = List.length coords.

  Definition axis (c : string) : option nat :=
    match pos_of c coords with Some k => nth_error shape k | None => None end.

  Lemma axis_In c : In c coords <-> exists n, axis c = Some n.
  Proof.
    unfold axis. split.
    - intros H. destruct (pos_of_In c coords H) as (k & E & L). rewrite E.
      destruct (nth_error shape k) eqn:E2; [eauto|]. apply nth_error_None in E2. lia.
    - intros [n H]. destruct (pos_of c coords) eqn:E; [|discriminate]. apply pos_of_nth in E. eapply nth_error_In; eauto.
  Qed.

  (** the invariant: every cached array is the right one, and every coordinate is there *)
  Definition good (d : cache) : Prop :=
    (forall c s a, dget ikey_dec (c, s) d = Some a -> exists n, axis c = Some n /\ a = shifted n s) /\
    (forall c, In c coords -> exists a, dget ikey_dec (c, 0%Z) d = Some a).

  Lemma init_index_good : exists d, init_index coords shape = Ok d /\ good d /\
    (forall c s a, dget ikey_dec (c, s) d = Some a -> s = 0%Z).
  Proof.
    unfold init_index.
    assert (G : forall pre rest, coords = pre ++ rest -> forall d,
      (forall c s a, dget ikey_dec (c, s) d = Some a -> s = 0%Z /\ exists n, axis c = Some n /\ a = shifted n s) ->
      (forall c, In c pre -> exists a, dget ikey_dec (c, 0%Z) d = Some a) ->
      exists d', foldM (fun d kc => match nth_error shape (fst kc) with
          | None => Err IndexError | Some n => Ok (dset ikey_dec (snd kc, 0%Z) (arange_int n) d) end) d
        (combine (seq (List.length pre) (List.length rest)) rest) = Ok d'
      /\ (forall c s a, dget ikey_dec (c, s) d' = Some a -> s = 0%Z /\ exists n, axis c = Some n /\ a = shifted n s)
      /\ (forall c, In c coords -> exists a, dget ikey_dec (c, 0%Z) d' = Some a)).
    { intros pre rest. revert pre. induction rest as [|c rest IH]; intros pre E d I1 I2.
      - exists d. split; [reflexivity|]. split; auto. rewrite E, app_nil_r. auto.
      - cbn [List.length seq combine foldM fst snd].
        assert (Hc : nth_error coords (List.length pre) = Some c).
        { rewrite E. rewrite nth_error_app2 by lia. rewrite Nat.sub_diag. reflexivity. }
        destruct (nth_error shape (List.length pre)) as [n|] eqn:En.
        2:{ exfalso. apply nth_error_None in En. rewrite LEN, E, app_length in En. simpl in En. lia. }
        cbn [bind].
        destruct (IH (pre ++ [c])) with (d := dset ikey_dec (c, 0%Z) (arange_int n) d) as (d' & H1 & H2 & H3).
        + rewrite E, <- app_assoc. reflexivity.
        + intros c' s a. rewrite dget_dset. destruct (ikey_dec (c', s) (c, 0%Z)) as [Eq|_]; [|apply I1].
          intros Ea. inversion Ea. inversion Eq. subst. split; auto. exists n. split.
          * unfold axis. rewrite (pos_of_nodup coords (List.length pre) c ND Hc). auto.
          * symmetry. apply shifted_0.
        + intros c' Hc'. rewrite dget_dset. destruct (ikey_dec (c', 0%Z) (c, 0%Z)) as [_|N]; [eauto|].
          apply I2. apply in_app_or in Hc'. destruct Hc' as [|[->|[]]]; [auto|congruence].
        + exists d'. split; auto. rewrite app_length in H1. simpl in H1. rewrite Nat.add_1_r in H1. exact H1. }
    destruct (G [] coords eq_refl []) as (d & H1 & H2 & H3).
    - intros c s a H. discriminate.
    - intros c [].
    - exists d. split; [exact H1|]. split; [split|]; auto.
      + intros c s a H. apply (H2 c s a H).
      + intros c s a H. apply (H2 c s a H).
  Qed.

  Lemma shifted_shift n s : map (fun i => ((i + s) mod Z.of_nat n)%Z) (shifted n 0) = shifted n s.
  Proof. rewrite shifted_0. unfold arange_int, shifted. rewrite map_map. reflexivity. Qed.

  Lemma index_good d c s : good d ->
    (forall n, axis c = Some n -> fst (index coords shape d c s) = Ok (shifted n s))
    /\ (axis c = None -> index coords shape d c s = (Err KeyError, d))
    /\ good (snd (index coords shape d c s)).
  Proof.
    intros [G1 G2]. unfold index.
    destruct (dget ikey_dec (c, s) d) as [a|] eqn:E.
    - destruct (G1 c s a E) as (n & An & ->). split; [|split].
      + intros n' An'. cbn. congruence.
      + congruence.
      + cbn. split; auto.
    - destruct (dget ikey_dec (c, 0%Z) d) as [a0|] eqn:E0.
      + destruct (G1 c 0%Z a0 E0) as (n & An & ->). unfold axis in An.
        destruct (pos_of c coords) as [k|] eqn:Ek; [|discriminate]. rewrite An.
        assert (An' : axis c = Some n) by (unfold axis; rewrite Ek; auto).
        rewrite shifted_shift. cbn [fst snd]. split; [|split].
        * intros n' H. congruence.
        * congruence.
        * split.
          -- intros c' s' a'. rewrite dget_dset. destruct (ikey_dec (c', s') (c, s)) as [Eq|_]; [|apply G1].
             inversion Eq; subst. intros Ea; inversion Ea; subst. eauto.
          -- intros c' Hc'. rewrite dget_dset. destruct (ikey_dec (c', 0%Z) (c, s)); eauto.
      + cbn. split; [|split; [|split]]; auto.
        intros n An. exfalso. destruct (G2 c) as [a Ha]; [apply axis_In; eauto|]. congruence.
  Qed.

  Definition expected (cs : string * Z) : res (list Z) :=
    match axis (fst cs) with Some n => Ok (shifted n (snd cs)) | None => Err KeyError end.

  Lemma index_calls_good calls : forall d, good d ->
    fst (index_calls coords shape d calls) = map expected calls
    /\ good (snd (index_calls coords shape d calls)).
  Proof.
    induction calls as [|[c s] r IH]; intros d G; [split; auto|].
    cbn [index_calls map]. destruct (index_good d c s G) as (A & B & C).
    unfold expected at 1. cbn [fst snd].
    destruct (index coords shape d c s) as [v d'] eqn:E. cbn [fst snd] in *.
    destruct (IH d' C) as [H1 H2]. destruct (index_calls coords shape d' r) as [vs d2]. cbn [fst snd] in *.
    split; auto. f_equal; auto.
    destruct (axis c) as [n|]; [apply A; auto|]. specialize (B eq_refl). inversion B. reflexivity.
  Qed.
End Idx.

(** ** translations *)
Lemma mod_range (n j : nat) (s : Z) : (j < n)%nat -> (Z.to_nat ((Z.of_nat j + s) mod Z.of_nat n) < n)%nat.
Proof. intros H. pose proof (Z.mod_pos_bound (Z.of_nat j + s) (Z.of_nat n)). lia. Qed.

Lemma wrap_in_range shape : forall disp js, List.length disp = List.length shape ->
  in_range shape js -> in_range shape (wrap shape disp js).
Proof.
  unfold in_range. induction shape as [|n shape IH]; intros disp js L H; inversion H; subst.
  - destruct disp; simpl; constructor.
  - destruct disp as [|s disp]; simpl in L; [lia|]. simpl. constructor; auto. apply mod_range; auto.
Qed.

Fixpoint zadd (a b : list Z) : list Z :=
  match a, b with x :: a, y :: b => (x + y)%Z :: zadd a b | _, _ => [] end.

Lemma wrap_wrap shape : forall a b js, List.length a = List.length shape -> List.length b = List.length shape ->
  in_range shape js -> wrap shape a (wrap shape b js) = wrap shape (zadd a b) js.
Proof.
  unfold in_range. induction shape as [|n shape IH]; intros a b js La Lb H; inversion H; subst; [destruct a, b; reflexivity|].
  destruct a as [|p a]; simpl in La; [lia|]. destruct b as [|q b]; simpl in Lb; [lia|]. simpl. f_equal.
  - rewrite Z2Nat.id by (apply Z.mod_pos_bound; lia). rewrite Zplus_mod_idemp_l. f_equal. f_equal. lia.
  - apply IH; auto.
Qed.
Lemma zadd_comm a : forall b, zadd a b = zadd b a.
Proof. induction a; destruct b; simpl; auto. f_equal; auto. lia. Qed.
Lemma zadd_length a : forall b n, List.length a = n -> List.length b = n -> List.length (zadd a b) = n.
Proof. induction a; destruct b; simpl; intros n A B; subst; try discriminate; auto. Qed.

Lemma wrap_id shape : forall disp js, List.length disp = List.length shape ->
  Forall2 (fun n s => exists q, s = (q * Z.of_nat n)%Z) shape disp ->
  in_range shape js -> wrap shape disp js = js.
Proof.
  unfold in_range. induction shape as [|n shape IH]; intros disp js L D H; inversion H; subst; [destruct disp; reflexivity|].
  inversion D as [|? s ? disp' [q ->] D']; subst. simpl in *. f_equal; [|apply IH; auto].
  rewrite Z.mod_add by lia. rewrite Z.mod_small by lia. lia.
Qed.

Section Arrays.
  Variable K : Fld.
  Add Field KFg : (f_th K).
  Open Scope fld_scope.
  Variables (coords : list string) (shape : list nat).
  Hypothesis ND : NoDup coords.
  Hypothesis LEN : List.length shape = List.length coords.

  Lemma nth_shifted n s j : (j < n)%nat -> nth j (shifted n s) 0%Z = ((Z.of_nat j + s) mod Z.of_nat n)%Z.
  Proof.
    intros H. unfold shifted.
    rewrite (nth_indep _ 0%Z ((Z.of_nat 0 + s) mod Z.of_nat n)%Z) by (rewrite map_length, seq_length; auto).
    rewrite (map_nth (fun i => ((Z.of_nat i + s) mod Z.of_nat n)%Z)). rewrite seq_nth by auto. reflexivity.
  Qed.

  Lemma ix_pos_wrap : forall sh disp js, List.length disp = List.length sh -> in_range sh js ->
    ix_pos (map (fun ns => shifted (fst ns) (snd ns)) (combine sh disp)) js = wrap sh disp js.
  Proof.
    unfold in_range. induction sh as [|n sh IH]; intros disp js L H; inversion H; subst.
    - reflexivity.
    - destruct disp as [|s disp]; [simpl in L; lia|]. cbn [combine map ix_pos wrap fst snd]. f_equal.
      + rewrite nth_shifted; auto.
      + apply IH; auto.
  Qed.

  Lemma index_all_good disp : List.length disp = List.length coords -> forall d, good coords shape d ->
    fst (index_all coords shape d (combine coords disp)) =
      Ok (map (fun ns => shifted (fst ns) (snd ns)) (combine shape disp))
    /\ good coords shape (snd (index_all coords shape d (combine coords disp))).
  Proof.
    intros L.
    assert (G : forall pre rest sh ds, coords = pre ++ rest -> List.length ds = List.length rest ->
       (forall k c, nth_error rest k = Some c -> axis coords shape c = nth_error sh k) ->
       List.length sh = List.length rest ->
       forall d, good coords shape d ->
       fst (index_all coords shape d (combine rest ds)) = Ok (map (fun ns => shifted (fst ns) (snd ns)) (combine sh ds))
       /\ good coords shape (snd (index_all coords shape d (combine rest ds)))).
    { intros pre rest. revert pre. induction rest as [|c rest IH]; intros pre sh ds E Ld Hax Ls d Gd.
      - destruct ds; [|discriminate]. destruct sh; [|discriminate]. split; auto.
      - destruct ds as [|s ds]; [discriminate|]. destruct sh as [|n sh]; [discriminate|].
        cbn [combine index_all map fst snd].
        destruct (index_good coords shape LEN d c s Gd) as (A & _ & C).
        specialize (A n (Hax 0%nat c eq_refl)).
        destruct (index coords shape d c s) as [v d'] eqn:Ev. cbn [fst snd] in *. subst v.
        destruct (IH (pre ++ [c]) sh ds) with (d := d') as [H1 H2]; auto.
        { rewrite E, <- app_assoc. reflexivity. }
        { intros k c' Hk. apply (Hax (S k) c' Hk). }
        destruct (index_all coords shape d' (combine rest ds)) as [vs d2]. cbn [fst snd] in *. subst vs.
        split; auto. }
    intros d Gd. apply (G [] coords shape disp); auto.
    intros k c Hk. unfold axis. rewrite (pos_of_nodup coords k c ND Hk). reflexivity.
  Qed.

  Lemma read_displaced_good (a : @arr K) disp : List.length disp = List.length coords -> forall d, good coords shape d ->
    exists b, fst (read_displaced coords shape d a disp) = Ok b
      /\ (forall js, in_range shape js -> b js = a (wrap shape disp js))
      /\ good coords shape (snd (read_displaced coords shape d a disp)).
  Proof.
    intros L d Gd. unfold read_displaced. destruct (existsb (fun s => negb (Z.eqb s 0)) disp) eqn:E.
    - destruct (index_all_good disp L d Gd) as [H1 H2].
      destruct (index_all coords shape d (combine coords disp)) as [v d']. cbn [fst snd] in *. subst v.
      exists (np_ix a (map (fun ns => shifted (fst ns) (snd ns)) (combine shape disp))). split; [reflexivity|]. split; auto.
      intros js Hjs. unfold np_ix. rewrite ix_pos_wrap; auto. lia.
    - exists a. cbn. split; auto. split; auto. intros js Hjs. f_equal. symmetry. apply wrap_id; auto; [lia|].
      assert (Z0 : Forall (fun s => s = 0%Z) disp).
      { clear -E. induction disp as [|s disp IH]; constructor; simpl in E; apply orb_false_iff in E; destruct E as [E1 E2].
        - apply negb_false_iff, Z.eqb_eq in E1. auto.
        - auto. }
      assert (L' : List.length shape = List.length disp) by lia. clear -L' Z0. revert shape L'.
      induction Z0 as [|s disp -> Z0 IH]; intros [|n shape] L'; simpl in L'; try lia; constructor.
      + exists 0%Z. lia.
      + apply IH. lia.
  Qed.

  Lemma eval_terms_good (a : @arr K) l : (forall c disp, In (c, disp) l -> List.length disp = List.length coords) ->
    forall d, good coords shape d ->
    exists b, fst (eval_terms coords shape d a l) = Ok b
      /\ (forall js, in_range shape js -> b js = lin_shift shape l a js)
      /\ good coords shape (snd (eval_terms coords shape d a l)).
  Proof.
    induction l as [|[c disp] l IH]; intros Hl d Gd.
    - exists (fun _ => 0). cbn. auto.
    - cbn [eval_terms].
      destruct (read_displaced_good a disp (Hl c disp (or_introl eq_refl)) d Gd) as (b & H1 & H2 & H3).
      destruct (read_displaced coords shape d a disp) as [v d']. cbn [fst snd] in *. subst v.
      destruct (IH (fun c' d0 I => Hl c' d0 (or_intror I)) d' H3) as (b' & J1 & J2 & J3).
      destruct (eval_terms coords shape d' a l) as [w d2]. cbn [fst snd] in *. subst w.
      exists (fun js => c * b js + b' js). split; [reflexivity|]. split; auto.
      intros js Hjs. rewrite H2, J2 by auto. reflexivity.
  Qed.

End Arrays.

(** ** sums *)
Section Sums.
  Variable K : Fld.
  Add Field KFg2 : (f_th K).
  Open Scope fld_scope.
  Variable shape : list nat.

  Lemma gsum_ext sh f g : (forall js, in_range sh js -> f js = g js) -> @gsum K sh f = gsum sh g.
  Proof.
    revert f g. induction sh as [|n sh IH]; intros f g H; simpl.
    - apply H. constructor.
    - apply fsum_ext. intros i Hi. apply IH. intros js Hjs. apply H. constructor; auto.
  Qed.
  Lemma gsum_add sh f g : @gsum K sh (fun js => f js + g js) = gsum sh f + gsum sh g.
  Proof.
    revert f g. induction sh as [|n sh IH]; intros f g; simpl; [reflexivity|].
    rewrite <- fsum_add. apply fsum_ext. intros i _. apply IH.
  Qed.
  Lemma gsum_scale sh c f : @gsum K sh (fun js => c * f js) = c * gsum sh f.
  Proof.
    revert f. induction sh as [|n sh IH]; intros f; simpl; [reflexivity|].
    rewrite <- fsum_scale. apply fsum_ext. intros i _. apply IH.
  Qed.
  Lemma gsum_zero sh : @gsum K sh (fun _ => 0) = 0.
  Proof. induction sh as [|n sh IH]; simpl; auto. apply fsum_zero. intros. apply IH. Qed.

  Lemma fsum_rot1 n (g : nat -> K) : fsum n (fun i => g ((i + 1) mod n)%nat) = fsum n g.
  Proof.
    destruct n as [|n]; [reflexivity|].
    rewrite (fsum_shift K n g). 
    change (fsum (S n) (fun i => g ((i + 1) mod S n)%nat)) with (fsum n (fun i => g ((i + 1) mod S n)%nat) + g ((n + 1) mod S n)%nat).
    replace ((n + 1) mod S n)%nat with O by (rewrite Nat.add_1_r, Nat.mod_same; lia).
    rewrite (fsum_ext K n _ (fun i => g (S i))).
    - ring.
    - intros i Hi. f_equal. rewrite Nat.mod_small by lia. lia.
  Qed.
  Lemma fsum_rot n (g : nat -> K) k : fsum n (fun i => g ((i + k) mod n)%nat) = fsum n g.
  Proof.
    destruct n as [|n]; [reflexivity|].
    induction k as [|k IH].
    - apply fsum_ext. intros i Hi. f_equal. rewrite Nat.add_0_r. apply Nat.mod_small; auto.
    - rewrite <- IH. rewrite <- (fsum_rot1 (S n) (fun i => g ((i + k) mod S n)%nat)).
      apply fsum_ext. intros i Hi. f_equal. rewrite Nat.add_mod_idemp_l by lia. f_equal. lia.
  Qed.
  Lemma fsum_wrap n (g : nat -> K) s :
    fsum n (fun i => g (Z.to_nat ((Z.of_nat i + s) mod Z.of_nat n))) = fsum n g.
  Proof.
    destruct n as [|n]; [reflexivity|]. set (N := S n) in *.
    rewrite <- (fsum_rot N g (Z.to_nat (s mod Z.of_nat N))).
    apply fsum_ext. intros i Hi. f_equal.
    pose proof (Z.mod_pos_bound s (Z.of_nat N) ltac:(lia)) as B.
    apply Nat2Z.inj. rewrite Z2Nat.id by (apply Z.mod_pos_bound; lia).
    rewrite Nat2Z.inj_mod, Nat2Z.inj_add, Z2Nat.id by lia. rewrite Zplus_mod_idemp_r. reflexivity.
  Qed.

  Lemma gsum_wrap sh : forall disp (f : list nat -> K), List.length disp = List.length sh ->
    gsum sh (fun js => f (wrap sh disp js)) = gsum sh f.
  Proof.
    induction sh as [|n sh IH]; intros disp f L; [destruct disp; reflexivity|].
    destruct disp as [|s disp]; [discriminate|]. cbn [gsum wrap].
    rewrite <- (fsum_wrap n (fun i => gsum sh (fun js => f (i :: js))) s).
    apply fsum_ext. intros i Hi. apply (IH disp (fun js => f (_ :: js))). simpl in L; lia.
  Qed.

  Lemma lin_shift_sum (l : list (K * list Z)) (a : list nat -> K) : (forall c disp, In (c, disp) l -> List.length disp = List.length shape) ->
    gsum shape (lin_shift shape l a) = fold_right (fun cd acc => fst cd + acc) 0 l * gsum shape a.
  Proof.
    induction l as [|[c disp] l IH]; intros H.
    - unfold lin_shift. simpl. rewrite gsum_zero. ring.
    - transitivity (gsum shape (fun js => c * a (wrap shape disp js) + lin_shift shape l a js)); [reflexivity|].
      rewrite gsum_add, gsum_scale, IH by (intros; eapply H; right; eauto).
      rewrite (gsum_wrap shape disp a) by (apply (H c); left; auto). simpl. ring.
  Qed.

  (** summation by parts: the adjoint of a combination of shifts *)
  Lemma zadd_opp : forall d : list Z, Forall2 (fun n s => exists q, s = (q * Z.of_nat n)%Z) (repeat 1%nat (List.length d)) (zadd (map Z.opp d) d).
  Proof. induction d; simpl; constructor; auto. exists 0%Z. lia. Qed.

  Lemma lin_shift_adjoint (l : list (K * list Z)) (f g : list nat -> K) :
    (forall c disp, In (c, disp) l -> List.length disp = List.length shape) ->
    gsum shape (fun js => f js * lin_shift shape l g js)
    = gsum shape (fun js => g js * lin_shift shape (map (fun cd => (fst cd, map Z.opp (snd cd))) l) f js).
  Proof.
    induction l as [|[c disp] l IH]; intros H.
    - apply gsum_ext. intros js _. unfold lin_shift. simpl. ring.
    - transitivity (c * gsum shape (fun js => f js * g (wrap shape disp js)) + gsum shape (fun js => f js * lin_shift shape l g js)).
      { rewrite <- gsum_scale, <- gsum_add. apply gsum_ext. intros js _. unfold lin_shift. simpl. ring. }
      rewrite IH by (intros; eapply H; right; eauto). cbn [map fst snd].
      pose proof (H c disp (or_introl eq_refl)) as Ld.
      transitivity (c * gsum shape (fun js => g js * f (wrap shape (map Z.opp disp) js))
        + gsum shape (fun js => g js * lin_shift shape (map (fun cd => (fst cd, map Z.opp (snd cd))) l) f js)).
      + f_equal. f_equal. 
        rewrite <- (gsum_wrap shape disp (fun js => g js * f (wrap shape (map Z.opp disp) js))) by auto.
        apply gsum_ext. intros js Hjs. cbv beta.
        rewrite wrap_wrap by (auto; rewrite map_length; auto).
        rewrite (wrap_id shape (zadd (map Z.opp disp) disp) js); auto; [ring| |].
        * apply zadd_length; [rewrite map_length|]; auto.
        * clear -Ld. revert disp Ld. induction shape as [|n sh IHs]; intros [|s disp] L; simpl in *; try discriminate; constructor.
          -- exists 0%Z. lia.
          -- apply IHs. lia.
      + rewrite <- gsum_scale, <- gsum_add. apply gsum_ext. intros js _. unfold lin_shift. simpl. ring.
  Qed.
End Sums.
