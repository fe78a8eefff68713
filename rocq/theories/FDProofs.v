(** The central stencils as iterated difference operators, and exactness on polynomials. *)
From Coq Require Import List Arith ZArith Lia Field Ring Bool FunctionalExtensionality.
From Verif Require Import PyBase Scalars FieldFacts FornbergModel FDSpec FornbergProofs.
Import ListNotations.

Section Ops.
  Variable K : Fld.
  Add Field KFd : (f_th K).
  Open Scope fld_scope.

  Definition fwd (s : K) (f : K -> K) (y : K) : K := f (y + s) - f y.

  Lemma fsum_last n (g : nat -> K) : fsum (S n) g = fsum n g + g n.
  Proof. reflexivity. Qed.

  Lemma fwd_iter_S m s f y : Nat.iter (S m) (fwd s) f y
    = Nat.iter m (fwd s) f (y + s) - Nat.iter m (fwd s) f y.
  Proof. reflexivity. Qed.

  Lemma fwd_iter_sum (s : K) f : forall m y,
    Nat.iter m (fwd s) f y = fsum (S m) (fun j => sgn (m - j) * fnat (binom m j) * f (y + fnat j * s)).
  Proof.
    induction m as [|m IH]; intros y.
    - unfold fsum, sgn. simpl. replace (y + 0 * s) with y by ring. ring.
    - rewrite fwd_iter_S, !IH.
      set (a := fun j => sgn (m - j) * fnat (binom m j) * f (y + s + fnat j * s)).
      set (b := fun j => sgn (m - j) * fnat (binom m j) * f (y + fnat j * s)).
      rewrite (fsum_shift K (S m)).
      rewrite (fsum_last m a), (fsum_shift K m b).
      rewrite fsum_last.
      transitivity (fsum m a - fsum m (fun i => b (S i)) + (a m - b O)); [ring|].
      rewrite <- fsum_sub.
      replace (fsum m (fun i => sgn (S m - S i) * fnat (binom (S m) (S i)) * f (y + fnat (S i) * s)))
        with (fsum m (fun i => a i - b (S i))).
      2:{ apply fsum_ext. intros i Hi. unfold a, b. cbn [binom]. rewrite fnat_add.
          replace (y + s + fnat i * s) with (y + fnat (S i) * s) by (simpl; ring).
          replace (S m - S i)%nat with (m - i)%nat by lia.
          replace (m - i)%nat with (S (m - S i)) by lia. rewrite sgn_S. ring. }
      replace (a m) with (sgn (S m - S m) * fnat (binom (S m) (S m)) * f (y + fnat (S m) * s)).
      2:{ unfold a. rewrite !Nat.sub_diag, !binom_diag.
          replace (y + s + fnat m * s) with (y + fnat (S m) * s) by (simpl; ring). reflexivity. }
      replace (b O) with (- (sgn (S m - 0) * fnat (binom (S m) 0) * f (y + fnat 0 * s))).
      2:{ unfold b. rewrite !Nat.sub_0_r, !binom_0, sgn_S. ring. }
      ring.
  Qed.

  (** the elementary centred operators *)
  Definition D1 (h : K) (f : K -> K) (x : K) : K := (f (x + h) - f (x - h)) / ((1 + 1) * h).
  Definition D2 (h : K) (f : K -> K) (x : K) : K := (f (x + h) - (1 + 1) * f x + f (x - h)) / (h * h).
  Definition Aop (h : K) (f : K -> K) (x : K) : K := (f (x + h) + f (x - h)) / (1 + 1).

  Variable h : K.
  Hypothesis Hh : h <> 0.

  Lemma two_neq0 : (1 + 1 : K) <> 0. Proof. apply f2_neq0. Qed.

  Lemma D1_S m f x : Nat.iter (S m) (D1 h) f x
    = (Nat.iter m (D1 h) f (x + h) - Nat.iter m (D1 h) f (x - h)) / ((1 + 1) * h).
  Proof. reflexivity. Qed.
  Lemma D2_S m f x : Nat.iter (S m) (D2 h) f x
    = (Nat.iter m (D2 h) f (x + h) - (1 + 1) * Nat.iter m (D2 h) f x + Nat.iter m (D2 h) f (x - h)) / (h * h).
  Proof. reflexivity. Qed.

  Lemma D1_iter m : forall f x,
    Nat.iter m (D1 h) f x = Nat.iter m (fwd ((1+1) * h)) f (x - fnat m * h) / fpow ((1+1)*h) m.
  Proof.
    pose proof two_neq0.
    induction m as [|m IH]; intros f x.
    - simpl. replace (x - 0 * h) with x by ring. field. apply f1_neq0.
    - rewrite D1_S, !IH, fwd_iter_S. cbn [fpow].
      replace (x - fnat (S m) * h + (1 + 1) * h) with (x + h - fnat m * h) by (simpl; ring).
      replace (x - fnat (S m) * h) with (x - h - fnat m * h) by (simpl; ring).
      pose proof (fpow_neq0 K ((1+1)*h) m (fmul_neq0 K _ _ H Hh)). field. auto.
  Qed.
  Lemma D2_iter p : forall f x,
    Nat.iter p (D2 h) f x = Nat.iter (2 * p) (fwd h) f (x - fnat p * h) / fpow h (2 * p).
  Proof.
    induction p as [|p IH]; intros f x.
    - simpl. replace (x - 0 * h) with x by ring. field. apply f1_neq0.
    - replace (2 * S p)%nat with (S (S (2 * p))) by lia.
      rewrite D2_S, !IH, !fwd_iter_S. cbn [fpow].
      replace (x - fnat (S p) * h + h) with (x - fnat p * h) by (simpl; ring).
      replace (x - fnat (S p) * h) with (x - h - fnat p * h) by (simpl; ring).
      replace (x - fnat p * h + h) with (x + h - fnat p * h) by ring.
      pose proof (fpow_neq0 K h (2 * p) Hh). field. auto.
  Qed.

  Lemma apply_stencil_fsum (g : nat -> Z * K) f x n :
    apply_stencil (map g (seq 0 n)) f x h
    = fsum n (fun j => snd (g j) * f (x + fz (fst (g j)) * h)).
  Proof.
    unfold apply_stencil. 
    assert (G : forall n a (z : K), fold_right (fun kw acc => snd kw * f (x + fz (fst kw) * h) + acc) z (map g (seq a n))
       = fsum n (fun j => snd (g (a + j)%nat) * f (x + fz (fst (g (a + j)%nat)) * h)) + z).
    { clear n. induction n as [|n IH]; intros a z; [simpl; ring|].
      cbn [seq map fold_right]. rewrite IH. rewrite (fsum_shift K n). rewrite Nat.add_0_r.
      replace (fsum n (fun j => snd (g (S a + j)%nat) * f (x + fz (fst (g (S a + j)%nat)) * h)))
        with (fsum n (fun i => snd (g (a + S i)%nat) * f (x + fz (fst (g (a + S i)%nat)) * h))).
      - ring.
      - apply fsum_ext. intros i _. replace (a + S i)%nat with (S a + i)%nat by lia. reflexivity. }
    rewrite (G n O 0). simpl. ring.
  Qed.

  Lemma fsum_div n (g : nat -> K) c : c <> 0 -> fsum n (fun j => g j / c) = fsum n g / c.
  Proof.
    intros Hc. induction n; simpl; [field; auto|]. rewrite IHn. field. auto.
  Qed.

  Lemma apply_central_odd p f x :
    apply_stencil (central (2 * p + 1) h) f x h = Nat.iter (2 * p + 1) (D1 h) f x.
  Proof.
    unfold central. rewrite apply_stencil_fsum. rewrite D1_iter, fwd_iter_sum.
    assert (He : Nat.even (2 * p + 1) = false).
    { rewrite <- Nat.negb_odd. replace (Nat.odd (2 * p + 1)) with true; auto.
      symmetry. apply Nat.odd_spec. exists p; auto. }
    rewrite He. rewrite <- fsum_div by (apply fpow_neq0, fmul_neq0; auto; apply two_neq0).
    apply fsum_ext. intros j Hj. cbn [fst snd].
    rewrite fz_sub, fz_mul, !fz_nat. change (fz 2) with (@fnat K 2).
    replace (x - fnat (2 * p + 1) * h + fnat j * ((1 + 1) * h))
      with (x + (fnat 2 * fnat j - fnat (2 * p + 1)) * h) by (simpl (fnat 2); ring).
    field. apply fpow_neq0, fmul_neq0; auto; apply two_neq0.
  Qed.
  Lemma apply_central_even p f x :
    apply_stencil (central (2 * p) h) f x h = Nat.iter p (D2 h) f x.
  Proof.
    unfold central. rewrite apply_stencil_fsum. rewrite D2_iter, fwd_iter_sum.
    assert (He : Nat.even (2 * p) = true) by (apply Nat.even_spec; exists p; auto).
    rewrite He. rewrite <- fsum_div by (apply fpow_neq0; auto).
    apply fsum_ext. intros j Hj. cbn [fst snd].
    replace (Z.of_nat (2 * p) / 2)%Z with (Z.of_nat p).
    2:{ rewrite Nat2Z.inj_mul. change (Z.of_nat 2) with 2%Z. rewrite Z.mul_comm, Z.div_mul by lia. reflexivity. }
    rewrite fz_sub, !fz_nat.
    replace (x - fnat p * h + fnat j * h) with (x + (fnat j - fnat p) * h) by ring.
    field. apply fpow_neq0; auto.
  Qed.

  (** polynomials with fewer than n coefficients *)
  Definition isP (n : nat) (f : K -> K) : Prop := exists c, (length c <= n)%nat /\ forall x, f x = poly c x.

  Lemma isP_0 n f : (forall x, f x = 0) -> isP n f.
  Proof. intros H. exists []. simpl. split; [lia|auto]. Qed.
  Lemma isP_0_inv f : isP 0 f -> forall x, f x = 0.
  Proof. intros (c & Hc & E) x. destruct c; simpl in Hc; [|lia]. rewrite E. reflexivity. Qed.
  Lemma isP_mono n n' f : (n <= n')%nat -> isP n f -> isP n' f.
  Proof. intros H (c & Hc & E). exists c. split; [lia|auto]. Qed.
  Lemma isP_ext n f g : (forall x, f x = g x) -> isP n f -> isP n g.
  Proof. intros H (c & Hc & E). exists c. split; auto. intros. rewrite <- H. auto. Qed.

  Fixpoint padd (a b : list K) : list K :=
    match a, b with [], _ => b | _, [] => a | x :: a, y :: b => x + y :: padd a b end.
  Lemma padd_poly a : forall b x, poly (padd a b) x = poly a x + poly b x.
  Proof. induction a; destruct b; simpl; intros; try rewrite IHa; ring. Qed.
  Lemma padd_length a : forall b, (length (padd a b) <= Nat.max (length a) (length b))%nat.
  Proof. induction a; destruct b; simpl; try lia. specialize (IHa b). lia. Qed.
  Lemma isP_add n f g : isP n f -> isP n g -> isP n (fun x => f x + g x).
  Proof.
    intros (a & Ha & Ea) (b & Hb & Eb). exists (padd a b).
    split; [pose proof (padd_length a b); lia|]. intros. rewrite padd_poly, Ea, Eb. reflexivity.
  Qed.
  Lemma isP_scale n k f : isP n f -> isP n (fun x => k * f x).
  Proof.
    intros (a & Ha & Ea). exists (map (fmul k) a). rewrite map_length. split; auto.
    intros x. rewrite Ea. clear. induction a; simpl; [ring|]. rewrite <- IHa. ring.
  Qed.
  Lemma isP_mulx n f : isP n f -> isP (S n) (fun x => x * f x).
  Proof.
    intros (a & Ha & Ea). exists (0 :: a). simpl. split; [lia|]. intros. rewrite Ea. ring.
  Qed.
  Lemma isP_mulx_sub n k f : isP (n - k) f -> isP (S n - k) (fun x => x * f x).
  Proof.
    intros H. destruct (le_lt_dec n (k - 1)) as [L|L].
    - destruct (Nat.eq_dec k 0); [subst; rewrite Nat.sub_0_r in *; apply isP_mulx; auto|].
      replace (n - k)%nat with O in H by lia. apply isP_0. intros x. rewrite (isP_0_inv _ H). ring.
    - replace (S n - k)%nat with (S (n - k)) by lia. apply isP_mulx; auto.
  Qed.

  Lemma pd_from_S k (c : list K) x : poly (pd_from (S k) c) x = poly (pd_from k c) x + poly c x.
  Proof. revert k. induction c; intros k; simpl; [ring|]. rewrite IHc. simpl. ring. Qed.
  Lemma pd_from_0 (c : list K) x : poly (pd_from 0 c) x = x * poly (pderiv c) x.
  Proof. destruct c; simpl; ring. Qed.
  Lemma pderiv_cons (a : K) r x : poly (pderiv (a :: r)) x = poly r x + x * poly (pderiv r) x.
  Proof. cbn [pderiv]. rewrite pd_from_S, pd_from_0. ring. Qed.
  Lemma pd_from_length k (c : list K) : length (pd_from k c) = length c.
  Proof. revert k; induction c; simpl; auto. Qed.
  Lemma pderiv_length (c : list K) : length (pderiv c) = (length c - 1)%nat.
  Proof. destruct c; simpl; auto. rewrite pd_from_length. lia. Qed.

  (** (x*g)'' = 2g' + x g'' on coefficient lists *)
  Lemma pderiv_map_mul (r : list K) x : forall k : nat,
    poly (pderiv (pd_from k r)) x = fnat k * poly (pderiv r) x + poly (pderiv (pd_from 0 r)) x.
  Proof.
    intros k. induction k as [|k IH]; [simpl; ring|].
    transitivity (poly (pderiv (pd_from k r)) x + poly (pderiv r) x).
    - clear. destruct r as [|a r]; [simpl; ring|]. cbn [pd_from pderiv].
      assert (G : forall (r : list K) j k, poly (pd_from j (pd_from (S k) r)) x
                  = poly (pd_from j (pd_from k r)) x + poly (pd_from j r) x).
      { clear. induction r as [|b r IH]; intros j k; simpl; [ring|].
        change (1 + fnat k) with (@fnat K (S k)). rewrite IH. simpl. ring. }
      apply G.
    - rewrite IH. simpl. ring.
  Qed.
  Lemma pderiv2_cons (a : K) r x : poly (pderiv (pderiv (a :: r))) x
     = (1 + 1) * poly (pderiv r) x + x * poly (pderiv (pderiv r)) x.
  Proof.
    cbn [pderiv]. rewrite pderiv_map_mul.
    assert (E : poly (pderiv (pd_from 0 r)) x = poly (pderiv r) x + x * poly (pderiv (pderiv r)) x).
    { destruct r as [|b r]; [simpl; ring|]. cbn [pd_from]. rewrite pderiv_cons. reflexivity. }
    rewrite E. simpl. ring.
  Qed.

  Lemma ops_poly (c : list K) :
    isP (length c - 2) (fun x => Aop h (poly c) x - poly c x) /\
    isP (length c - 3) (fun x => D1 h (poly c) x - poly (pderiv c) x) /\
    isP (length c - 4) (fun x => D2 h (poly c) x - poly (pderiv (pderiv c)) x).
  Proof.
    pose proof two_neq0 as H2.
    induction c as [|a r (IA & I1 & I2)].
    - split; [|split]; apply isP_0; intros x; unfold Aop, D1, D2; simpl; field; auto.
    - cbn [length].
      assert (Hd : isP (length r - 1) (D1 h (poly r))).
      { eapply isP_ext with (f := fun x => (D1 h (poly r) x - poly (pderiv r) x) + poly (pderiv r) x);
          [intros; ring|]. apply isP_add; [eapply isP_mono; [|exact I1]; lia|].
        exists (pderiv r). rewrite pderiv_length. split; auto. }
      split; [|split].
      + eapply isP_ext with (f := fun x => x * (Aop h (poly r) x - poly r x) + (h * h) * D1 h (poly r) x).
        { intros x. unfold Aop, D1. cbn [poly]. field. auto. }
        apply isP_add; [apply isP_mulx_sub; auto|]. apply isP_scale. eapply isP_mono; [|exact Hd]; lia.
      + eapply isP_ext with (f := fun x => x * (D1 h (poly r) x - poly (pderiv r) x)
                                          + (Aop h (poly r) x - poly r x)).
        { intros x. rewrite pderiv_cons. unfold Aop, D1. cbn [poly]. field. auto. }
        apply isP_add; [apply isP_mulx_sub; auto|]. eapply isP_mono; [|exact IA]; lia.
      + eapply isP_ext with (f := fun x => x * (D2 h (poly r) x - poly (pderiv (pderiv r)) x)
                                          + (1 + 1) * (D1 h (poly r) x - poly (pderiv r) x)).
        { intros x. rewrite pderiv2_cons. unfold D2, D1. cbn [poly]. field. auto. }
        apply isP_add; [apply isP_mulx_sub; auto|]. apply isP_scale. eapply isP_mono; [|exact I1]; lia.
  Qed.

  Lemma D1_ext f g : (forall x, f x = g x) -> forall x, D1 h f x = D1 h g x.
  Proof. intros E x. unfold D1. rewrite !E. reflexivity. Qed.
  Lemma D2_ext f g : (forall x, f x = g x) -> forall x, D2 h f x = D2 h g x.
  Proof. intros E x. unfold D2. rewrite !E. reflexivity. Qed.

  Lemma D1_isP n f : isP n f -> isP (n - 1) (D1 h f).
  Proof.
    intros (c & Hc & E). destruct (ops_poly c) as (_ & (e & He & Ee) & _).
    exists (padd e (pderiv c)). split; [pose proof (padd_length e (pderiv c)); rewrite pderiv_length in *; lia|].
    intros x. rewrite padd_poly, <- Ee, (D1_ext f (poly c) E). ring.
  Qed.
  Lemma D2_isP n f : isP n f -> isP (n - 2) (D2 h f).
  Proof.
    intros (c & Hc & E). destruct (ops_poly c) as (_ & _ & (e & He & Ee)).
    exists (padd e (pderiv (pderiv c))).
    split; [pose proof (padd_length e (pderiv (pderiv c))); rewrite !pderiv_length in *; lia|].
    intros x. rewrite padd_poly, <- Ee, (D2_ext f (poly c) E). ring.
  Qed.

  Lemma pderiv_iter_length m (c : list K) : length (Nat.iter m pderiv c) = (length c - m)%nat.
  Proof. induction m; simpl; [lia|]. rewrite pderiv_length, IHm. lia. Qed.

  Lemma D1_iter_poly c m :
    isP (length c - m - 2) (fun x => Nat.iter m (D1 h) (poly c) x - poly (Nat.iter m pderiv c) x).
  Proof.
    induction m as [|m IH]; [apply isP_0; intros; simpl; ring|].
    set (g := Nat.iter m (D1 h) (poly c)) in *. set (q := Nat.iter m pderiv c) in *.
    apply isP_ext with (f := fun x => D1 h (fun y => g y - poly q y) x + (D1 h (poly q) x - poly (pderiv q) x)).
    { intros x. change (Nat.iter (S m) (D1 h) (poly c)) with (D1 h g).
      change (Nat.iter (S m) pderiv c) with (pderiv q). unfold D1. field. split; auto. apply two_neq0. }
    apply isP_add.
    - eapply isP_mono; [|apply D1_isP; exact IH]. lia.
    - eapply isP_mono; [|apply (proj1 (proj2 (ops_poly q)))]. unfold q. rewrite pderiv_iter_length. lia.
  Qed.
  Lemma D2_iter_poly c p :
    isP (length c - 2 * p - 2) (fun x => Nat.iter p (D2 h) (poly c) x - poly (Nat.iter (2 * p) pderiv c) x).
  Proof.
    induction p as [|p IH]; [apply isP_0; intros; simpl; ring|].
    replace (2 * S p)%nat with (S (S (2 * p))) by lia.
    set (g := Nat.iter p (D2 h) (poly c)) in *. set (q := Nat.iter (2 * p) pderiv c) in *.
    apply isP_ext with (f := fun x => D2 h (fun y => g y - poly q y) x + (D2 h (poly q) x - poly (pderiv (pderiv q)) x)).
    { intros x. change (Nat.iter (S p) (D2 h) (poly c)) with (D2 h g).
      change (Nat.iter (S (S (2 * p))) pderiv c) with (pderiv (pderiv q)). unfold D2. field. auto. }
    apply isP_add.
    - eapply isP_mono; [|apply D2_isP; exact IH]. lia.
    - eapply isP_mono; [|apply (proj2 (proj2 (ops_poly q)))]. unfold q. rewrite pderiv_iter_length. lia.
  Qed.

  Theorem central_exact m c x : (length c <= m + 2)%nat ->
    apply_stencil (central m h) (poly c) x h = poly (Nat.iter m pderiv c) x.
  Proof.
    intros Hl. transitivity ((apply_stencil (central m h) (poly c) x h - poly (Nat.iter m pderiv c) x)
                             + poly (Nat.iter m pderiv c) x); [ring|].
    destruct (Nat.Even_or_Odd m) as [[p ->]|[p ->]].
    - rewrite apply_central_even. pose proof (D2_iter_poly c p) as H.
      replace (length c - 2 * p - 2)%nat with O in H by lia.
      rewrite (isP_0_inv _ H x). ring.
    - rewrite apply_central_odd. pose proof (D1_iter_poly c (2 * p + 1)) as H.
      replace (length c - (2 * p + 1) - 2)%nat with O in H by lia.
      rewrite (isP_0_inv _ H x). ring.
  Qed.
End Ops.
