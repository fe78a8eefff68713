(** Fornberg's recursion computes the derivatives of the Lagrange basis; for the points
    chosen by the project the weights are those of the central differences. *)
From Coq Require Import List Arith ZArith Lia Field Ring Bool.
From Verif Require Import PyBase Scalars FieldFacts FornbergModel FDSpec.
Import ListNotations.

Section Forn.
  Variable K : Fld.
  Add Field KFo : (f_th K).
  Open Scope fld_scope.
  Notation table := (@table K).

  Lemma upd_eq (d : table) m n nu v m' n' nu' :
    upd d m n nu v m' n' nu' =
    if (Nat.eqb m m' && Nat.eqb n n' && Nat.eqb nu nu')%bool then v else d m' n' nu'.
  Proof. reflexivity. Qed.

  Lemma fold_upd (n nu : nat) (G : table -> nat -> K) (d : table) :
    (1 <= n)%nat ->
    (forall d1 d2, (forall m k, d1 m (n-1)%nat k = d2 m (n-1)%nat k) -> forall m, G d1 m = G d2 m) ->
    forall p m' n' nu',
      fold_left (fun d m => upd d m n nu (G d m)) (seq 0 p) d m' n' nu' =
      if (Nat.eqb n n' && Nat.eqb nu nu' && Nat.ltb m' p)%bool then G d m' else d m' n' nu'.
  Proof.
    intros Hn HG. induction p as [|p IH]; intros m' n' nu'.
    - simpl. rewrite andb_false_r. reflexivity.
    - rewrite seq_S, fold_left_app. cbn [fold_left]. rewrite Nat.add_0_l. rewrite upd_eq, IH.
      rewrite (HG _ d).
      2:{ intros m k. rewrite IH. destruct (Nat.eqb_spec n (n-1)); [lia|]. reflexivity. }
      destruct (Nat.eqb_spec p m') as [->|Hm], (Nat.eqb_spec n n'), (Nat.eqb_spec nu nu'); cbn [andb]; auto.
      + destruct (Nat.ltb_spec m' (S m')); [auto|lia].
      + destruct (Nat.ltb_spec m' p), (Nat.ltb_spec m' (S p)); auto; lia.
  Qed.

  Variable x : nat -> K.
  Variable x0 : K.

  Definition lin (a : K) (p : nat -> K) (m : nat) : K :=
    a * p m + match m with O => 0 | S m' => p m' end.

  (** product over k < n, k <> nu of (X + x0 - x_k)/(x_nu - x_k), as coefficients *)
  Fixpoint LP (n nu : nat) : nat -> K :=
    match n with
    | O => fun m => match m with O => 1 | _ => 0 end
    | S k => if Nat.eqb k nu then LP k nu
             else fun m => lin (x0 - x k) (LP k nu) m / (x nu - x k)
    end.
  (** product over k < n of (x_nu - x_k) *)
  Fixpoint W (n nu : nat) : K :=
    match n with O => 1 | S k => W k nu * (x nu - x k) end.
  (** product over k < n of (X + x0 - x_k) *)
  Fixpoint U (n : nat) : nat -> K :=
    match n with
    | O => fun m => match m with O => 1 | _ => 0 end
    | S k => lin (x0 - x k) (U k)
    end.

  Hypothesis xinj : forall i j, x i = x j -> i = j.
  Lemma xdiff i j : i <> j -> x i - x j <> 0.
  Proof. intros H E. apply H, xinj. transitivity (x i - x j + x j); [ring|rewrite E; ring]. Qed.

  Lemma W_neq0 n nu : (n <= nu)%nat -> W n nu <> 0.
  Proof.
    induction n; simpl; intros H; [apply f1_neq0|]. apply fmul_neq0; [apply IHn; lia|apply xdiff; lia].
  Qed.

  Lemma LP_U n nu m : (n <= nu)%nat -> LP n nu m = U n m / W n nu.
  Proof.
    revert m. induction n as [|n IH]; intros m H; simpl.
    - destruct m; field; apply f1_neq0.
    - destruct (Nat.eqb_spec n nu); [lia|]. unfold lin.
      pose proof (W_neq0 n nu ltac:(lia)). pose proof (xdiff nu n ltac:(lia)).
      rewrite IH by lia. destruct m; [|rewrite IH by lia]; field; auto.
  Qed.

  Lemma LP_deg n nu : forall m,
    ((n <= nu /\ n < m) \/ (nu < n /\ n <= m))%nat -> LP n nu m = 0.
  Proof.
    induction n as [|n IH]; intros m H; simpl.
    - destruct m; auto; lia.
    - destruct (Nat.eqb_spec n nu) as [->|Hn]; [apply IH; lia|].
      unfold lin. rewrite IH by lia. destruct m; [lia|]. rewrite IH by lia.
      field. apply xdiff; lia.
  Qed.

  (** rows up to [n] of the table are correct *)
  Definition row_ok (M : nat) (d : table) (n : nat) : Prop :=
    forall nu m, (nu <= n)%nat -> (m <= M)%nat -> d m n nu = ffac m * LP (S n) nu m.
  Definition zero_row (d : table) (n : nat) : Prop := forall nu m, d m n nu = 0.

  Lemma LP_rec n nu m : (nu < n)%nat ->
    LP (S n) nu m = ((x0 - x n) * LP n nu m + match m with O => 0 | S m' => LP n nu m' end)
                    / (x nu - x n).
  Proof. intros H. simpl. destruct (Nat.eqb_spec n nu); [lia|]. reflexivity. Qed.

  Lemma weight_rec n nu m (a b : K) : (nu < n)%nat ->
    a = ffac m * LP n nu m -> (m <> O -> b = ffac (m-1) * LP n nu (m-1)%nat) ->
    ((x n - x0) * a - fnat m * b) / (x n - x nu) = ffac m * LP (S n) nu m.
  Proof.
    intros H -> Hb. rewrite LP_rec by auto.
    pose proof (xdiff n nu ltac:(lia)) as N1. pose proof (xdiff nu n ltac:(lia)) as N2.
    destruct m as [|m].
    - simpl fnat. field. auto.
    - rewrite Hb by auto. simpl Nat.sub. rewrite Nat.sub_0_r, ffac_S. field. auto.
  Qed.

  Lemma inner_spec M n (d0 : table) :
    (1 <= n)%nat ->
    (forall n', (n' < n)%nat -> row_ok M d0 n') -> (forall n', (n <= n')%nat -> zero_row d0 n') ->
    forall j, (j <= n)%nat ->
    exists d, fold_left (fd_inner M n x x0) (seq 0 j) (d0, 1) = (d, W j n)
      /\ (forall n', (n' < n)%nat -> row_ok M d n')
      /\ (forall n', (n < n')%nat -> zero_row d n')
      /\ (forall nu m, (nu < j)%nat -> (m <= M)%nat -> d m n nu = ffac m * LP (S n) nu m)
      /\ (forall nu m, (j <= nu)%nat -> d m n nu = 0).
  Proof.
    intros Hn Hlow Hz. induction j as [|j IH]; intros Hj.
    - exists d0. simpl. split; auto. split; auto. split; [intros; apply Hz; lia|].
      split; [intros; lia|]. intros; apply Hz; lia.
    - destruct IH as (d & E & I1 & I2 & I3 & I4); [lia|].
      rewrite seq_S, fold_left_app, E, Nat.add_0_l. cbn [fold_left fd_inner].
      set (d1 := if Nat.leb n M then upd d n (n - 1) j 0 else d).
      assert (D1 : forall m n' nu, (m <= M)%nat -> (nu <= n')%nat -> d1 m n' nu = d m n' nu).
      { intros m n' nu Hm Hnu. unfold d1. destruct (Nat.leb_spec n M); auto. rewrite upd_eq.
        destruct (Nat.eqb_spec n m), (Nat.eqb_spec (n-1) n'), (Nat.eqb_spec j nu); cbn [andb]; auto.
        subst. rewrite (I1 (m-1)%nat) by lia. rewrite LP_deg by lia. ring. }
      assert (D1' : forall m n' nu, (n' <> n - 1)%nat -> d1 m n' nu = d m n' nu).
      { intros m n' nu Hne. unfold d1. destruct (Nat.leb n M); auto. rewrite upd_eq.
        destruct (Nat.eqb_spec (n-1) n'); [lia|]. rewrite andb_false_r. reflexivity. }
      set (G := fun (d : table) m =>
         ((x n - x0) * d m (n - 1)%nat j - fnat m * d (m - 1)%nat (n - 1)%nat j) / (x n - x j)).
      assert (HG : forall e1 e2 : table, (forall m k, e1 m (n-1)%nat k = e2 m (n-1)%nat k) ->
                   forall m, G e1 m = G e2 m) by (intros e1 e2 He m; unfold G; rewrite !He; reflexivity).
      pose proof (fold_upd n j G d1 Hn HG (Nat.min n M + 1)) as F.
      set (d2 := fold_left (fun d m => upd d m n j (G d m)) (seq 0 (Nat.min n M + 1)) d1) in *.
      exists d2. split; [reflexivity|].
      assert (Hne : forall n' m nu, n' <> n -> d2 m n' nu = d1 m n' nu).
      { intros n' m nu Hne. rewrite F. destruct (Nat.eqb_spec n n'); [lia|]. reflexivity. }
      split; [|split; [|split]].
      + intros n' Hn' nu m Hnu Hm. rewrite Hne by lia. rewrite D1 by lia. apply I1; auto.
      + intros n' Hn' nu m. rewrite Hne by lia. rewrite D1' by lia. apply I2; auto.
      + intros nu m Hnu Hm. rewrite F, Nat.eqb_refl. cbn [andb].
        destruct (Nat.eqb_spec j nu) as [<-|Hjn]; cbn [andb].
        * destruct (Nat.ltb_spec m (Nat.min n M + 1)).
          -- unfold G. apply weight_rec; [lia| |].
             ++ rewrite D1 by lia. replace n with (S (n-1)) at 2 by lia. apply I1; lia.
             ++ intros H0. rewrite D1 by lia. replace n with (S (n-1)) at 2 by lia. apply I1; lia.
          -- rewrite D1' by lia. rewrite I4 by lia. rewrite LP_deg by lia. ring.
        * rewrite D1' by lia. apply I3; lia.
      + intros nu m Hnu. rewrite F. destruct (Nat.eqb_spec j nu); [lia|]. rewrite andb_false_r. cbn [andb].
        rewrite D1' by lia. apply I4. lia.
  Qed.

  Lemma outer_spec M N :
    exists d, fold_left (fd_outer M x x0) (seq 1 N) (upd (fun _ _ _ => 0) 0 0 0 1, 1) = (d, W N N)
      /\ (forall n', (n' <= N)%nat -> row_ok M d n')
      /\ (forall n', (N < n')%nat -> zero_row d n').
  Proof.
    induction N as [|N (d & E & I1 & I2)].
    - exists (upd (fun _ _ _ => 0) 0 0 0 1). split; [reflexivity|]. split.
      + intros n' Hn' nu m Hnu Hm. assert (n' = 0)%nat by lia. assert (nu = 0)%nat by lia. subst.
        rewrite upd_eq. simpl. destruct m; simpl; [unfold ffac; simpl; ring|ring].
      + intros n' Hn' nu m. rewrite upd_eq. destruct (Nat.eqb_spec 0 n'); [lia|].
        rewrite andb_false_r. reflexivity.
    - rewrite seq_S, fold_left_app, E. cbn [fold_left]. unfold fd_outer at 1.
      replace (1 + N)%nat with (S N) by lia.
      destruct (inner_spec M (S N) d ltac:(lia)) with (j := S N) as (d1 & E1 & J1 & J2 & J3 & J4); auto.
      { intros; apply I1; lia. }
      rewrite E1.
      set (G := fun (d : table) m => W N N / W (S N) (S N) *
         (fnat m * d (m - 1)%nat (S N - 1)%nat (S N - 1)%nat - (x (S N - 1)%nat - x0) * d m (S N - 1)%nat (S N - 1)%nat)).
      assert (HG : forall e1 e2 : table, (forall m k, e1 m (S N-1)%nat k = e2 m (S N-1)%nat k) ->
                   forall m, G e1 m = G e2 m) by (intros e1 e2 He m; unfold G; rewrite !He; reflexivity).
      pose proof (fold_upd (S N) (S N) G d1 ltac:(lia) HG (Nat.min (S N) M + 1)) as F.
      set (d2 := fold_left (fun d m => upd d m (S N) (S N) (G d m)) (seq 0 (Nat.min (S N) M + 1)) d1) in *.
      exists d2. split; [reflexivity|].
      assert (Hne : forall n' m nu, n' <> S N -> d2 m n' nu = d1 m n' nu).
      { intros n' m nu Hne. rewrite F. destruct (Nat.eqb_spec (S N) n'); [lia|]. reflexivity. }
      split.
      + intros n' Hn' nu m Hnu Hm. destruct (Nat.eq_dec n' (S N)) as [->|Hnn].
        2:{ rewrite Hne by auto. apply J1; lia. }
        rewrite F, Nat.eqb_refl. cbn [andb]. destruct (Nat.eqb_spec (S N) nu) as [<-|Hq]; cbn [andb].
        2:{ apply J3; lia. }
        assert (Hd : LP (S (S N)) (S N) m = U (S N) m / W (S N) (S N)).
        { replace (LP (S (S N)) (S N)) with (LP (S N) (S N)); [apply LP_U; lia|].
          cbn [LP]. rewrite Nat.eqb_refl. reflexivity. }
        destruct (Nat.ltb_spec m (Nat.min (S N) M + 1)).
        * rewrite Hd. unfold G. replace (S N - 1)%nat with N by lia.
          assert (Hr : forall m', (m' <= M)%nat -> d1 m' N N = ffac m' * (U N m' / W N N)).
          { intros m' Hm'. rewrite (J1 N ltac:(lia) N m' ltac:(lia) Hm').
            cbn [LP]. rewrite Nat.eqb_refl. rewrite LP_U by lia. reflexivity. }
          pose proof (W_neq0 N N ltac:(lia)). pose proof (W_neq0 (S N) (S N) ltac:(lia)).
          rewrite (Hr m) by lia. cbn [U]. unfold lin. destruct m as [|m].
          -- simpl fnat. field. auto.
          -- rewrite (Hr (S m - 1)%nat) by lia. replace (S m - 1)%nat with m by lia.
             rewrite ffac_S. field. auto.
        * rewrite J4 by lia. rewrite LP_deg by lia. ring.
      + intros n' Hn' nu m. rewrite Hne by lia. apply J2. lia.
  Qed.

  (** top coefficient *)
  Fixpoint Wx (n nu : nat) : K :=
    match n with O => 1 | S k => if Nat.eqb k nu then Wx k nu else Wx k nu * (x nu - x k) end.
  Lemma Wx_W n nu : (n <= nu)%nat -> Wx n nu = W n nu.
  Proof.
    induction n as [|n IH]; intros H; simpl; auto.
    destruct (Nat.eqb_spec n nu); [lia|]. rewrite IH by lia. reflexivity.
  Qed.
  Lemma Wx_neq0 n nu : Wx n nu <> 0.
  Proof.
    induction n as [|n IH]; simpl; [apply f1_neq0|].
    destruct (Nat.eqb_spec n nu); auto. apply fmul_neq0; auto. apply xdiff; lia.
  Qed.
  Lemma LP_top n nu : 
    LP n nu (if Nat.ltb nu n then n - 1 else n)%nat = 1 / Wx n nu.
  Proof.
    induction n as [|n IH]; [simpl; field; apply f1_neq0|].
    cbn [LP Wx]. destruct (Nat.eqb_spec n nu) as [->|Hn].
    - destruct (Nat.ltb_spec nu (S nu)); [|lia]. destruct (Nat.ltb_spec nu nu); [lia|].
      replace (S nu - 1)%nat with nu by lia. exact IH.
    - pose proof (Wx_neq0 n nu). pose proof (xdiff nu n ltac:(lia)). unfold lin.
      destruct (Nat.ltb_spec nu (S n)), (Nat.ltb_spec nu n); try lia.
      + rewrite LP_deg by lia. destruct (S n - 1)%nat eqn:E; [lia|].
        replace n0 with (n - 1)%nat by lia. rewrite IH. field. auto.
      + rewrite LP_deg by lia. rewrite IH. field. auto.
  Qed.
End Forn.

Section Weights.
  Variable K : Fld.
  Add Field KFo2 : (f_th K).
  Open Scope fld_scope.

  (** extend a finite list of nodes with fresh ones: nodes beyond the list are never read *)
  Lemma fd_inner_ext M n (x y : nat -> K) x0 : (forall i, (i <= n)%nat -> x i = y i) ->
    forall j st, (j <= n)%nat ->
    fold_left (fd_inner M n x x0) (seq 0 j) st = fold_left (fd_inner M n y x0) (seq 0 j) st.
  Proof.
    intros H. induction j as [|j IH]; intros st Hj; [reflexivity|].
    rewrite seq_S, !fold_left_app, IH by lia. cbn [fold_left].
    destruct (fold_left (fd_inner M n y x0) (seq 0 j) st) as [d c].
    unfold fd_inner. rewrite !(H n), !(H (0 + j)%nat) by lia. reflexivity.
  Qed.

  Lemma fd_outer_ext M N (x y : nat -> K) x0 st : (forall i, (i <= N)%nat -> x i = y i) ->
    fold_left (fd_outer M x x0) (seq 1 N) st = fold_left (fd_outer M y x0) (seq 1 N) st.
  Proof.
    induction N as [|N IH]; intros H; [reflexivity|].
    rewrite seq_S, !fold_left_app, IH by (intros; apply H; lia). cbn [fold_left].
    destruct (fold_left (fd_outer M y x0) (seq 1 N) st) as [d c].
    unfold fd_outer. rewrite (fd_inner_ext M (1 + N) x y x0) by (auto; intros; apply H; lia).
    destruct (fold_left _ _ _). rewrite (H (1 + N - 1)%nat) by lia. reflexivity.
  Qed.

  (** equally spaced nodes *)
  Section Equi.
    Variables (x0 a s : K).
    Hypothesis Hs : s <> 0.
    Let x (j : nat) : K := x0 + a + fnat j * s.

    Lemma equi_inj i j : x i = x j -> i = j.
    Proof.
      unfold x. intros H. apply (fnat_inj K).
      transitivity ((x0 + a + fnat i * s - (x0 + a)) / s); [field; auto|].
      rewrite H. field. auto.
    Qed.

    Lemma Wx_equi_low n nu : (n <= nu)%nat ->
      Wx K x n nu * ffac (nu - n) = ffac nu * fpow s n.
    Proof.
      induction n as [|n IH]; intros H; simpl.
      - rewrite Nat.sub_0_r. ring.
      - destruct (Nat.eqb_spec n nu); [lia|].
        transitivity (Wx K x n nu * ffac (nu - n) * s).
        + replace (nu - n)%nat with (S (nu - S n)) by lia. rewrite ffac_S.
          replace (S (nu - S n)) with (nu - n)%nat by lia.
          rewrite fnat_sub by lia. unfold x. ring.
        + rewrite IH by lia. ring.
    Qed.
    Lemma Wx_equi_high k nu :
      Wx K x (S nu + k) nu = Wx K x (S nu) nu * sgn k * ffac k * fpow s k.
    Proof.
      induction k as [|k IH].
      - rewrite Nat.add_0_r. unfold sgn, ffac. simpl fpow. simpl fact. simpl fnat. ring.
      - replace (S nu + S k)%nat with (S (S nu + k)) by lia. cbn [Wx].
        destruct (Nat.eqb_spec (S nu + k) nu); [lia|]. cbn [Wx] in IH. rewrite IH.
        rewrite sgn_S, ffac_S. cbn [fpow]. unfold x.
        replace (fnat (S nu + k)) with (fnat nu + @fnat K (S k)).
        2:{ rewrite <- fnat_add. f_equal. lia. }
        ring.
    Qed.
    Lemma Wx_equi m nu : (nu <= m)%nat ->
      Wx K x (S m) nu = ffac nu * sgn (m - nu) * ffac (m - nu) * fpow s m.
    Proof.
      intros H. replace (S m) with (S nu + (m - nu))%nat by lia. rewrite Wx_equi_high.
      cbn [Wx]. rewrite Nat.eqb_refl.
      pose proof (Wx_equi_low nu nu ltac:(lia)) as E. rewrite Nat.sub_diag in E.
      replace (Wx K x nu nu) with (ffac nu * fpow s nu).
      - replace (fpow s m) with (fpow s nu * fpow s (m - nu)); [ring|].
        rewrite <- fpow_add. f_equal. lia.
      - rewrite <- E. unfold ffac. simpl. ring.
    Qed.

    Lemma weight_equi m nu : (nu <= m)%nat ->
      ffac m * (1 / Wx K x (S m) nu) = sgn (m - nu) * fnat (binom m nu) / fpow s m.
    Proof.
      intros H. rewrite Wx_equi by auto.
      assert (E : @ffac K m = fnat (binom m nu) * (ffac nu * ffac (m - nu))).
      { unfold ffac. rewrite <- !fnat_mul. rewrite binom_fact; auto. }
      rewrite E. pose proof (ffac_neq0 K nu). pose proof (ffac_neq0 K (m - nu)).
      pose proof (fpow_neq0 K s m Hs). pose proof (sgn_neq0 K (m - nu)).
      transitivity (fnat (binom m nu) / (sgn (m - nu) * fpow s m)); [field; auto|].
      transitivity (fnat (binom m nu) * (sgn (m-nu) * sgn (m-nu)) / (sgn (m - nu) * fpow s m)).
      - rewrite sgn_sq. field. auto.
      - field. auto.
    Qed.

    Lemma weights_equi m (l : list K) :
      l = map x (seq 0 (S m)) ->
      weights m l x0 = Some (map (fun nu => sgn (m - nu) * fnat (binom m nu) / fpow s m) (seq 0 (S m))).
    Proof.
      intros Hl. unfold weights. assert (Hlen : length l = S m) by (subst l; rewrite map_length, seq_length; auto).
      rewrite Hlen. destruct (Nat.ltb_spec (S m) (m + 1)); [lia|]. apply (f_equal Some).
      apply map_ext_in. intros nu Hnu. apply in_seq in Hnu.
      unfold finite_diff_weights. rewrite Hlen. replace (S m - 1)%nat with m by lia.
      rewrite (fd_outer_ext m m _ x).
      2:{ intros i Hi. subst l. rewrite (nth_indep _ 0 (x 0)) by (rewrite map_length, seq_length; lia).
          rewrite map_nth. rewrite seq_nth by lia. reflexivity. }
      destruct (outer_spec K x x0 equi_inj m m) as (d & E & I1 & _). rewrite E. cbn [fst].
      rewrite (I1 m (le_n m) nu m) by lia.
      pose proof (LP_top K x x0 equi_inj (S m) nu) as T.
      destruct (Nat.ltb_spec nu (S m)); [|lia]. replace (S m - 1)%nat with m in T by lia.
      rewrite T. apply weight_equi. lia.
    Qed.
  End Equi.

  (** the points *)
  Lemma zrange_length a b : length (zrange a b) = Z.to_nat (b - a).
  Proof. unfold zrange. rewrite map_length, seq_length. reflexivity. Qed.

  Lemma points_even p : fd_points (2 * p) = map (fun j => (Z.of_nat j - Z.of_nat p)%Z) (seq 0 (S (2 * p))).
  Proof.
    unfold fd_points. replace (2 * p)%nat with (p * 2)%nat by lia. rewrite Nat.mod_mul by lia.
    cbn [Nat.eqb]. unfold zrange.
    replace (- Z.of_nat (p * 2) / 2)%Z with (- Z.of_nat p)%Z.
    2:{ rewrite Nat2Z.inj_mul. replace (- (Z.of_nat p * Z.of_nat 2))%Z with (- Z.of_nat p * 2)%Z by lia.
        rewrite Z.div_mul by lia. reflexivity. }
    replace (Z.of_nat (p * 2) / 2)%Z with (Z.of_nat p).
    2:{ rewrite Nat2Z.inj_mul. change (Z.of_nat 2) with 2%Z. rewrite Z.div_mul by lia. reflexivity. }
    replace (Z.to_nat (Z.of_nat p + 1 - - Z.of_nat p)) with (S (p * 2)) by lia.
    apply map_ext. intros. lia.
  Qed.

  Lemma points_odd p : fd_points (2 * p + 1) =
    map (fun j => (2 * Z.of_nat j - (2 * Z.of_nat p + 1))%Z) (seq 0 (S (2 * p + 1))).
  Proof.
    unfold fd_points. replace (2 * p + 1)%nat with (1 + p * 2)%nat by lia.
    rewrite Nat.mod_add by lia. change (Nat.eqb (1 mod 2) 1) with true. cbv iota.
    unfold zrange. 
    replace (Z.to_nat (Z.of_nat (1 + p * 2) + 1 - - Z.of_nat (1 + p * 2))) with (S (2 * S (2 * p)))%nat by lia.
    set (n := (2 * p)%nat).
    transitivity (filter (fun k => Z.eqb (k mod 2) 1)
      (map (fun i => (- (2 * Z.of_nat p + 1) + Z.of_nat i)%Z) (seq (2 * 0) (S (2 * S n))))).
    { f_equal. apply map_ext. intros. lia. }
    (* 2n+3 = 2*(n+1)+1 consecutive integers starting with an odd one *)
    assert (G : forall q a, filter (fun k => Z.eqb (k mod 2) 1)
      (map (fun i => (- (2 * Z.of_nat p + 1) + Z.of_nat i)%Z) (seq (2 * a) (S (2 * q))))
      = map (fun j => (2 * Z.of_nat j - (2 * Z.of_nat p + 1))%Z) (seq a (S q))).
    { induction q as [|q IH]; intros a.
      - cbn [seq map filter Nat.mul].
        assert (E1 : ((- (2 * Z.of_nat p + 1) + Z.of_nat (2 * a)) mod 2 = 1)%Z).
        { replace (- (2 * Z.of_nat p + 1) + Z.of_nat (2 * a))%Z with (1 + (Z.of_nat a - Z.of_nat p - 1) * 2)%Z by lia.
          rewrite Z.mod_add by lia. reflexivity. }
        change (a + (a + 0))%nat with (2 * a)%nat. rewrite E1.
        change (1 =? 1)%Z with true. cbv iota. f_equal. lia.
      - replace (2 * S q)%nat with (S (S (2 * q))) by lia. 
        change (seq (2 * a) (S (S (S (2 * q))))) with ((2*a)%nat :: S (2*a) :: seq (S (S (2 * a))) (S (2 * q))).
        change (seq a (S (S q))) with (a :: seq (S a) (S q)).
        cbn [map filter]. replace (S (S (2 * a))) with (2 * S a)%nat by lia. rewrite IH.
        assert (E1 : ((- (2 * Z.of_nat p + 1) + Z.of_nat (2 * a)) mod 2 = 1)%Z).
        { replace (- (2 * Z.of_nat p + 1) + Z.of_nat (2 * a))%Z with (1 + (Z.of_nat a - Z.of_nat p - 1) * 2)%Z by lia.
          rewrite Z.mod_add by lia. reflexivity. }
        assert (E2 : ((- (2 * Z.of_nat p + 1) + Z.of_nat (S (2 * a))) mod 2 = 0)%Z).
        { replace (- (2 * Z.of_nat p + 1) + Z.of_nat (S (2 * a)))%Z with (0 + (Z.of_nat a - Z.of_nat p) * 2)%Z by lia.
          rewrite Z.mod_add by lia. reflexivity. }
        rewrite E1, E2. change (1 =? 1)%Z with true. change (0 =? 1)%Z with false. cbv iota.
        f_equal. lia. }
    rewrite (G (S n) 0%nat). unfold n. do 2 f_equal. lia.
  Qed.

  Lemma combine_map {A B C} (f : A -> B) (g : A -> C) l :
    combine (map f l) (map g l) = map (fun a => (f a, g a)) l.
  Proof. induction l; simpl; congruence. Qed.

  Lemma f2_neq0 : (1 + 1 : K) <> 0.
  Proof. intros H. apply (fnat_neq0 K 2); [lia|]. simpl. transitivity (1 + 1 : K); [ring|auto]. Qed.

  Theorem stencil_central m (xi h : K) : h <> 0 -> stencil m xi h = Some (central m h).
  Proof.
    intros Hh. unfold stencil, central.
    destruct (Nat.Even_or_Odd m) as [[p ->]|[p ->]].
    - rewrite points_even. rewrite map_map.
      assert (He : Nat.even (2 * p) = true) by (apply Nat.even_spec; exists p; auto). rewrite He.
      rewrite (weights_equi xi (- fnat p * h) h Hh (2 * p)).
      + rewrite combine_map. apply (f_equal Some). apply map_ext. intros j. f_equal.
        rewrite Nat2Z.inj_mul. change (Z.of_nat 2) with 2%Z. rewrite Z.mul_comm, Z.div_mul by lia. reflexivity.
      + apply map_ext. intros j. rewrite fz_sub, !fz_nat. ring.
    - rewrite points_odd. rewrite map_map.
      assert (He : Nat.even (2 * p + 1) = false).
      { rewrite <- Nat.negb_odd. replace (Nat.odd (2 * p + 1)) with true; auto.
        symmetry. apply Nat.odd_spec. exists p; auto. }
      rewrite He.
      assert (H2 : (1 + 1) * h <> 0) by (apply fmul_neq0; auto; apply f2_neq0).
      rewrite (weights_equi xi (- fnat (2 * p + 1) * h) ((1 + 1) * h) H2 (2 * p + 1)).
      + rewrite combine_map. apply (f_equal Some). apply map_ext. intros j. f_equal. lia.
      + apply map_ext. intros j.
        replace (2 * Z.of_nat p + 1)%Z with (Z.of_nat (2 * p + 1)) by lia.
        rewrite fz_sub, fz_mul, !fz_nat. change (fz 2) with (@fnat K 2). simpl (fnat 2). ring.
  Qed.
End Weights.
