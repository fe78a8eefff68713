(** Derivatives of the finite-difference engine on the generated grid; the constructor. *)
From Coq Require Import List Arith ZArith Bool String Lia Ring Field.
From Verif Require Import PyBase PyBaseFacts Scalars FieldFacts FornbergModel FDSpec FornbergProofs FDProofs
  FDExprModel FDExprSpec FDExprProofs FDSubsProofs GridModel GridSpec GridProofs.
Import ListNotations.
Open Scope list_scope.

Section W.
  Variable K : Fld.
  Add Field KFw : (f_th K).
  Open Scope fld_scope.
  Variable dx : nat -> K.

  Definition tval (G : list Z -> K) (l : list (term K)) : K :=
    fold_right (fun t acc => fst t * G (fst (snd t)) + acc) 0 l.
  Lemma tval_app G l l' : tval G (l ++ l') = tval G l + tval G l'.
  Proof. unfold tval. induction l; simpl; [ring|]. rewrite IHl. ring. Qed.
  Lemma tval_scale G c l : tval G (scale K c l) = c * tval G l.
  Proof. unfold tval, scale. induction l; simpl; [ring|]. rewrite IHl. ring. Qed.

  (** weighted sum over a stencil *)
  Definition wsum (f : Z -> K) (l : list (Z * K)) : K :=
    fold_right (fun kw acc => snd kw * f (fst kw) + acc) 0 l.
  Lemma wsum_app f l l' : wsum f (l ++ l') = wsum f l + wsum f l'.
  Proof. unfold wsum. induction l; simpl; [ring|]. rewrite IHl. ring. Qed.
  Lemma wsum_rev f l : wsum f (rev l) = wsum f l.
  Proof. induction l as [|kw l IH]; [reflexivity|]. simpl rev. rewrite wsum_app, IH. unfold wsum. simpl. ring. Qed.
  Lemma wsum_ext f g l : (forall k, f k = g k) -> wsum f l = wsum g l.
  Proof. intros H. unfold wsum. induction l; simpl; auto. rewrite IHl, H. reflexivity. Qed.
  Lemma wsum_const c l : wsum (fun _ => c) l = c * wsum (fun _ => 1) l.
  Proof. unfold wsum. induction l; simpl; [ring|]. rewrite IHl. ring. Qed.
  Lemma wsum_scale c f l : wsum (fun k => c * f k) l = c * wsum f l.
  Proof. unfold wsum. induction l; simpl; [ring|]. rewrite IHl. ring. Qed.

  Lemma tval_tensor_cons G s i o rest :
    tval G (tensor K dx s ((i, o) :: rest)) = wsum (fun k => tval G (tensor K dx (addz i k s) rest)) (central o (dx i)).
  Proof.
    cbn [tensor]. unfold wsum. induction (central o (dx i)) as [|kw l IH]; [reflexivity|].
    cbn [flat_map fold_right]. rewrite tval_app, tval_scale, IH. reflexivity.
  Qed.

  (** reversing a stencil *)
  Lemma wsum_central_opp f m h : wsum (fun k => f (- k)%Z) (central m h) = sgn m * wsum f (central m h).
  Proof.
    rewrite <- (wsum_rev f (central m h)), (central_rev K).
    induction (central m h) as [|kw l IH]; [unfold wsum; simpl; ring|].
    unfold wsum in *. cbn [map fold_right fst snd]. rewrite IH.
    pose proof (sgn_sq K m) as S1.
    transitivity ((sgn m * sgn m) * (snd kw * f (- fst kw)%Z) + sgn m * fold_right (fun (kw0 : Z * K) (acc : K) => snd kw0 * f (fst kw0) + acc) 0
      (map (fun kw0 : Z * K => ((- fst kw0)%Z, sgn m * snd kw0)) l)); [rewrite S1; ring|ring].
  Qed.

  Lemma map_opp_addz i k s : map Z.opp (addz i k s) = addz i (- k)%Z (map Z.opp s).
  Proof.
    unfold addz. 
    assert (N : nth i (map Z.opp s) 0%Z = (- nth i s 0)%Z) by (change 0%Z with (Z.opp 0) at 1; apply map_nth).
    rewrite N. replace (- nth i s 0 + - k)%Z with (- (nth i s 0 + k))%Z by lia.
    generalize (nth i s 0 + k)%Z as v. clear N. revert i. induction s as [|a s IH]; intros [|i] v; simpl; auto. f_equal. apply IH.
  Qed.

  Definition orders (ds : list (nat * nat)) : nat := fold_right (fun d acc => (snd d + acc)%nat) 0%nat ds.

  Lemma tensor_opp ds : forall G s,
    tval (fun d => G (map Z.opp d)) (tensor K dx s ds) = sgn (orders ds) * tval G (tensor K dx (map Z.opp s) ds).
  Proof.
    induction ds as [|[i o] rest IH]; intros G s.
    - unfold tval, sgn. simpl. ring.
    - rewrite !tval_tensor_cons. cbn [orders fold_right fst snd]. fold (orders rest).
      rewrite (wsum_ext _ (fun k => sgn (orders rest) * tval G (tensor K dx (addz i (- k)%Z (map Z.opp s)) rest))).
      + rewrite wsum_scale.
        rewrite (wsum_central_opp (fun k => tval G (tensor K dx (addz i k (map Z.opp s)) rest))).
        rewrite sgn_add. ring.
      + intros k. rewrite IH, map_opp_addz. reflexivity.
  Qed.

  (** the weights of a derivative of positive order sum to zero *)
  Lemma central_sum m (h : K) : (0 < m)%nat -> h <> 0 -> wsum (fun _ => 1) (central m h) = 0.
  Proof.
    intros Hm Hh. pose proof (central_exact K h Hh m [1] 0) as E. simpl List.length in E. specialize (E ltac:(lia)).
    assert (P : Nat.iter m pderiv [1] = @nil K).
    { destruct m as [|m]; [lia|]. clear. induction m as [|m IH]; [reflexivity|].
      change (pderiv (Nat.iter (S m) pderiv [1]) = @nil K). rewrite IH. reflexivity. }
    rewrite P in E. cbn [poly] in E. refine (eq_trans _ E). unfold apply_stencil, wsum. clear E.
    induction (central m h) as [|kw l IH]; simpl; [reflexivity|]. rewrite IH. ring.
  Qed.

  Lemma tval_const ds : forall s, (forall i o, In (i, o) ds -> dx i <> 0) -> (exists i o, In (i, o) ds /\ (0 < o)%nat) ->
    tval (fun _ => 1) (tensor K dx s ds) = 0.
  Proof.
    induction ds as [|[i o] rest IH]; intros s Hd (i' & o' & I & Ho); [destruct I|].
    rewrite tval_tensor_cons.
    destruct o as [|o].
    - destruct I as [E|I]; [inversion E; lia|].
      rewrite (wsum_ext _ (fun _ => 0)).
      + rewrite wsum_const. ring.
      + intros k. apply IH; eauto. intros. eapply Hd; right; eauto.
    - assert (C : forall s s', tval (fun _ => 1) (tensor K dx s rest) = tval (fun _ => 1) (tensor K dx s' rest)).
      { clear. induction rest as [|[i o] rest IH]; intros s s'; [reflexivity|].
        rewrite !tval_tensor_cons. apply wsum_ext. intros k. apply IH. }
      rewrite (wsum_ext _ (fun _ => tval (fun _ => 1) (tensor K dx s rest))) by (intros; apply C).
      rewrite wsum_const, central_sum; [ring|lia|]. apply (Hd i (S o)). left; auto.
  Qed.

  Lemma tensor_lengths ds : forall s t, In t (tensor K dx s ds) -> List.length (fst (snd t)) = List.length s.
  Proof.
    induction ds as [|[i o] rest IH]; intros s t H.
    - destruct H as [<-|[]]. reflexivity.
    - cbn [tensor] in H. apply in_flat_map in H. destruct H as (kw & _ & H).
      unfold scale in H. apply in_map_iff in H. destruct H as (t' & <- & H). cbn [snd]. rewrite (IH _ _ H). apply addz_length.
  Qed.

  (** terms of the engine as shifts *)
  Definition shifts (l : list (term K)) : list (K * list Z) := map (fun t => (fst t, fst (snd t))) l.

  Lemma lin_shift_tval shape l a js : lin_shift shape (shifts l) a js = tval (fun d => a (wrap shape d js)) l.
  Proof. unfold lin_shift, shifts, tval. induction l as [|t l IH]; simpl; [reflexivity|]. rewrite IH. reflexivity. Qed.
  Lemma shifts_sum l : fold_right (fun cd acc => fst cd + acc) 0 (shifts l) = tval (fun _ => 1) l.
  Proof. unfold shifts, tval. induction l as [|t l IH]; simpl; [reflexivity|]. rewrite IH. ring. Qed.
  Lemma lin_shift_opp shape l a js :
    lin_shift shape (map (fun cd => (fst cd, map Z.opp (snd cd))) (shifts l)) a js
    = tval (fun d => a (wrap shape (map Z.opp d) js)) l.
  Proof. unfold lin_shift, shifts, tval. induction l as [|t l IH]; simpl; [reflexivity|]. rewrite IH. reflexivity. Qed.

  Lemma shifts_lengths s ds c disp : In (c, disp) (shifts (tensor K dx s ds)) -> List.length disp = List.length s.
  Proof. unfold shifts. intros H. apply in_map_iff in H. destruct H as (t & E & H). inversion E; subst. eapply tensor_lengths; eauto. Qed.

  Lemma grid_conservation shape ds (a : list nat -> K) :
    (forall i o, In (i, o) ds -> dx i <> 0) -> (exists i o, In (i, o) ds /\ (0 < o)%nat) ->
    gsum shape (lin_shift shape (shifts (tensor K dx (repeat 0%Z (List.length shape)) ds)) a) = 0.
  Proof.
    intros H1 H2. rewrite lin_shift_sum.
    - rewrite shifts_sum, tval_const; auto. ring.
    - intros c disp I. rewrite (shifts_lengths _ _ _ _ I), repeat_length. auto.
  Qed.

  Lemma map_opp_zeros n : map Z.opp (repeat 0%Z n) = repeat 0%Z n.
  Proof. induction n; simpl; [auto|]. rewrite IHn. auto. Qed.

  Lemma grid_sbp shape ds (f g : list nat -> K) :
    let D := shifts (tensor K dx (repeat 0%Z (List.length shape)) ds) in
    gsum shape (fun js => f js * lin_shift shape D g js)
    = sgn (orders ds) * gsum shape (fun js => g js * lin_shift shape D f js).
  Proof.
    intros D. unfold D. rewrite lin_shift_adjoint.
    - rewrite <- gsum_scale. apply gsum_ext. intros js _. rewrite lin_shift_opp, lin_shift_tval.
      rewrite (tensor_opp ds (fun d => f (wrap shape d js))). rewrite map_opp_zeros. ring.
    - intros c disp I. rewrite (shifts_lengths _ _ _ _ I), repeat_length. auto.
  Qed.
End W.

(** ** constructor *)
Section C.
  Context {K : Fld}.
  Open Scope fld_scope.

  Lemma fold_nan names : forall (a : dict string (@attr K)) n,
    dget string_dec n (fold_left (fun a n => dset string_dec n NaN a) names a)
    = if in_dec string_dec n names then Some NaN else dget string_dec n a.
  Proof.
    induction names as [|m names IH]; intros a n; [reflexivity|].
    cbn [fold_left]. rewrite IH, dget_dset.
    destruct (in_dec string_dec n names) as [i|i], (in_dec string_dec n (m :: names)) as [j|j];
      destruct (string_dec n m) as [E|E]; auto; exfalso; simpl in j; try tauto; destruct j; auto.
  Qed.

  Lemma fold_kw names kwargs : NoDup (map fst kwargs) -> forall (a : dict string (@attr K)) n,
    dget string_dec n (fold_left (fun a kv => if lmem string_dec (fst kv) names then dset string_dec (fst kv) (snd kv) a else a) kwargs a)
    = if in_dec string_dec n names
      then match dget string_dec n kwargs with Some v => Some v | None => dget string_dec n a end
      else dget string_dec n a.
  Proof.
    intros ND. induction kwargs as [|[k v] kw IH]; intros a n.
    - simpl dget at 2. destruct (in_dec string_dec n names); reflexivity.
    - inversion ND as [|? ? Nk ND']; subst. cbn [fold_left fst snd]. rewrite IH by auto.
      cbn [dget]. destruct (lmem string_dec k names) eqn:L.
      + apply lmem_true in L. rewrite dget_dset. destruct (string_dec n k) as [->|N].
        * destruct (in_dec string_dec k names) as [_|]; [|tauto].
          assert (E : dget string_dec k kw = None) by (apply dget_None; exact Nk). rewrite E.
          destruct (string_dec k k); congruence.
        * destruct (in_dec string_dec n names) as [_|]; [|reflexivity]. destruct (string_dec n k); [congruence|reflexivity].
      + apply lmem_false in L. destruct (in_dec string_dec n names) as [I|I]; auto.
        destruct (string_dec n k) as [->|]; [tauto|]. reflexivity.
  Qed.

  Lemma set_block_get names kwargs (a : dict string (@attr K)) n : NoDup (map fst kwargs) ->
    dget string_dec n (set_block names kwargs a)
    = if in_dec string_dec n names
      then match dget string_dec n kwargs with Some v => Some v | None => Some NaN end
      else dget string_dec n a.
  Proof.
    intros ND. unfold set_block. rewrite fold_kw by auto. rewrite fold_nan.
    destruct (in_dec string_dec n names); reflexivity.
  Qed.

  Lemma set_constants_get cf cs kwargs (a : dict string (@attr K)) n : NoDup (map fst kwargs) ->
    dget string_dec n (fst (set_constants cf cs kwargs a))
    = if in_dec string_dec n (cf ++ cs)
      then match dget string_dec n kwargs with Some v => Some v | None => Some NaN end
      else dget string_dec n a.
  Proof.
    intros ND. unfold set_constants. cbn [fst]. rewrite !set_block_get by auto.
    destruct (in_dec string_dec n (cf ++ cs)) as [i|i], (in_dec string_dec n cs) as [j|j]; auto.
    - apply in_app_or in i. destruct (in_dec string_dec n cf); [auto|tauto].
    - exfalso. apply i, in_or_app. auto.
    - destruct (in_dec string_dec n cf); [exfalso; apply i, in_or_app; auto|auto].
  Qed.
  Lemma set_constants_warn cf cs kwargs (a : dict string (@attr K)) n : NoDup (map fst kwargs) ->
    In n (snd (set_constants cf cs kwargs a)) <->
    In n (cf ++ cs) /\ (dget string_dec n kwargs = None \/ dget string_dec n kwargs = Some NaN).
  Proof.
    intros ND. unfold set_constants. cbn [snd]. rewrite !in_app_iff. unfold warn_block. rewrite !filter_In.
    rewrite !set_block_get by auto.
    assert (Q : forall names b, (In n names /\ is_nan (if in_dec string_dec n names
        then match dget string_dec n kwargs with Some v => Some v | None => Some NaN end else b) = true)
      <-> In n names /\ (dget string_dec n kwargs = None \/ dget string_dec n kwargs = Some NaN)).
    { intros names b. destruct (in_dec string_dec n names) as [i|i]; [|tauto].
      destruct (dget string_dec n kwargs) as [v|]; [|cbn; intuition].
      destruct v; cbn; intuition (try discriminate; try congruence). }
    rewrite !Q. tauto.
  Qed.

  Lemma mapM_div (lengths : list K) : forall shape, List.length lengths = List.length shape ->
    (forall n, In n shape -> n <> O) ->
    mapM div_shape (combine lengths shape) = Ok (map (fun ls => fst ls / fnat (snd ls)) (combine lengths shape)).
  Proof.
    induction lengths as [|l lengths IH]; intros [|n shape] L H; try discriminate; [reflexivity|].
    cbn [combine mapM map]. unfold div_shape at 1. cbn [fst snd].
    destruct (Nat.eqb n 0) eqn:E; [apply Nat.eqb_eq in E; exfalso; apply (H n); [left|]; auto|].
    cbn [bind]. rewrite IH; auto. intros m Hm. apply H. right; auto.
  Qed.
  Lemma mapM_div_0 (lengths : list K) : forall shape, List.length lengths = List.length shape ->
    In O shape -> mapM div_shape (combine lengths shape) = Err ZeroDivisionError.
  Proof.
    induction lengths as [|l lengths IH]; intros [|n shape] L H; try discriminate; [destruct H|].
    cbn [combine mapM map]. unfold div_shape at 1. cbn [fst snd].
    destruct (Nat.eqb n 0) eqn:E; [reflexivity|]. apply Nat.eqb_neq in E.
    destruct H as [->|H]; [congruence|]. cbn [bind]. rewrite IH; auto.
  Qed.

  Definition axis_points (n : nat) (d : K) : list K := map (fun k => fnat k * d) (seq 0 n).

  Lemma x_loop coords shape (ND : NoDup coords) (LEN : List.length shape = List.length coords) :
    forall (dx : list K), List.length dx = List.length coords -> forall idx, good coords shape idx ->
    exists idx', foldM (fun st cd =>
            let '(xs, idx) := st : list (list K) * cache in
            let '(v, idx) := index coords shape idx (fst cd) 0%Z in
            a <- v ;; Ok (xs ++ [map (fun i => fz i * snd cd) a], idx))
          ([], idx) (combine coords dx)
      = Ok (map (fun nd => axis_points (fst nd) (snd nd)) (combine shape dx), idx')
      /\ good coords shape idx'.
  Proof.
    intros dx Ldx.
    assert (G : forall pre rest sh ds xs idx, coords = pre ++ rest ->
      (forall k c, nth_error rest k = Some c -> axis coords shape c = nth_error sh k) ->
      List.length sh = List.length rest -> List.length ds = List.length rest -> good coords shape idx ->
      exists idx', foldM (fun st cd =>
            let '(xs, idx) := st : list (list K) * cache in
            let '(v, idx) := index coords shape idx (fst cd) 0%Z in
            a <- v ;; Ok (xs ++ [map (fun i => fz i * snd cd) a], idx))
          (xs, idx) (combine rest ds)
      = Ok (xs ++ map (fun nd => axis_points (fst nd) (snd nd)) (combine sh ds), idx')
      /\ good coords shape idx').
    { intros pre rest. revert pre. induction rest as [|c rest IH]; intros pre sh ds xs idx E Hax Ls Ld Gd.
      - destruct ds; [|discriminate]. destruct sh; [|discriminate]. exists idx. simpl. rewrite app_nil_r. auto.
      - destruct ds as [|d ds]; [discriminate|]. destruct sh as [|n sh]; [discriminate|].
        cbn [combine foldM map fst snd].
        destruct (index_good coords shape LEN idx c 0%Z Gd) as (A & _ & C).
        specialize (A n (Hax 0%nat c eq_refl)).
        destruct (index coords shape idx c 0%Z) as [v idx'] eqn:Ev. cbn [fst snd] in *. subst v. cbn [bind].
        destruct (IH (pre ++ [c]) sh ds (xs ++ [map (fun i => fz i * d) (shifted n 0)]) idx') as (i2 & H1 & H2); auto.
        { rewrite E, <- app_assoc. reflexivity. }
        { intros k c' Hk. apply (Hax (S k) c' Hk). }
        exists i2. split; auto. rewrite H1. f_equal. f_equal. rewrite <- app_assoc. cbn [app]. f_equal. f_equal.
        rewrite shifted_0. unfold arange_int, axis_points. rewrite map_map. apply map_ext. intros i. rewrite fz_nat. reflexivity. }
    intros idx Gd. destruct (G [] coords shape dx [] idx eq_refl) as (i2 & H1 & H2); auto.
    - intros k c Hk. unfold axis. rewrite (pos_of_nodup coords k c ND Hk). reflexivity.
    - exists i2. auto.
  Qed.

  Lemma grid_init_ok coords shape0 (lengths0 : option (list K)) : NoDup coords ->
    let shape := match shape0 with None => repeat 100%nat (List.length coords) | Some s => s end in
    let lengths := match lengths0 with None => repeat 1 (List.length coords) | Some s => s end in
    List.length shape = List.length coords -> List.length lengths = List.length coords ->
    (forall n, In n shape -> n <> O) ->
    exists g, grid_init coords shape0 lengths0 = Ok g
      /\ g_shape g = shape /\ g_lengths g = lengths
      /\ g_dx g = map (fun ls => fst ls / fnat (snd ls)) (combine lengths shape)
      /\ g_x g = map (fun nd => axis_points (fst nd) (snd nd)) (combine shape (g_dx g))
      /\ g_X_shapes g = repeat (meshgrid_shape shape) (List.length coords)
      /\ good coords shape (g_index g).
  Proof.
    intros ND shape lengths Ls Ll Hn. unfold grid_init. fold shape lengths.
    rewrite Ls, Ll, Nat.eqb_refl. cbn [negb].
    destruct (init_index_good coords shape ND Ls) as (d & E & Gd & _). rewrite E. cbn [bind].
    rewrite mapM_div by (auto; lia). cbn [bind].
    set (dxs := map (fun ls : K * nat => fst ls / fnat (snd ls)) (combine lengths shape)).
    destruct (x_loop coords shape ND Ls dxs) with (idx := d) as (i2 & H1 & H2); auto.
    { unfold dxs. rewrite map_length, combine_length. lia. }
    rewrite H1. cbn [bind]. eexists. split; [reflexivity|]. cbn. auto 10.
  Qed.
End C.

Lemma after_history_good coords shape hist d : NoDup coords -> List.length shape = List.length coords ->
  after_history coords shape hist d -> good coords shape d.
Proof.
  intros ND L (d0 & E & ->). destruct (init_index_good coords shape ND L) as (d1 & E1 & G & _).
  rewrite E in E1. inversion E1; subst. apply index_calls_good; auto.
Qed.
