(** Smooth functions of time and space: sums, products, inverses, square roots and inverse matrices of
    smooth functions are smooth.  A polynomial in functions whose derivatives are polynomials in these
    functions has derivatives of all orders. *)
From Coq Require Import List Arith Bool Reals Lia Lra Psatz FunctionalExtensionality.
From Verif Require Import FieldFacts FDExprSpec FDReal ConsistSpec ConsistProofs AdvectConv WindConv.
Import ListNotations.
Open Scope R_scope.

Lemma at_self (p : point) i : @at_coord RF p i (p i) = p.
Proof. apply functional_extensionality. intros j. unfold at_coord. destruct (Nat.eq_dec i j) as [<-|]; reflexivity. Qed.
Lemma inc_comm i j a : inc i (inc j a) = inc j (inc i a).
Proof. apply functional_extensionality. intros k. unfold inc. destruct (Nat.eq_dec i k), (Nat.eq_dec j k); reflexivity. Qed.

(** [u m t a] the derivative of order [m] in time and [a] in space, between [T0] and [T1] *)
Record family (n : nat) (T0 T1 : R) (u : nat -> R -> multi -> point -> R) : Prop := {
  fa_space : forall m t, T0 < t < T1 -> derivatives_of n (u m t);
  fa_time : forall m a t p, T0 < t < T1 -> derivable_pt_lim (fun s => u m s a p) t (u (S m) t a p);
  fa_bounded : forall m a, exists B, forall t p, T0 < t < T1 -> Rabs (u m t a p) <= B }.
Definition smoothf (n : nat) (T0 T1 : R) (f : R -> point -> R) : Prop :=
  exists u, family n T0 T1 u /\ forall t p, T0 < t < T1 -> u O t none p = f t p.

(** a derivative in time ([None]) or along an axis *)
Definition deriv (k : option nat) (f : R -> point -> R) (t : R) (p : point) (l : R) : Prop :=
  match k with
  | None => derivable_pt_lim (fun s => f s p) t l
  | Some i => derivable_pt_lim (fun s => f t (@at_coord RF p i s)) (p i) l
  end.
Lemma deriv_const k c t p : deriv k (fun _ _ => c) t p 0.
Proof. destruct k; apply derivable_pt_lim_const. Qed.
Lemma deriv_plus k f g t p l l' : deriv k f t p l -> deriv k g t p l' -> deriv k (fun t p => f t p + g t p) t p (l + l').
Proof. destruct k as [i|]; intros H1 H2; [exact (derivable_pt_lim_plus _ _ _ _ _ H1 H2)|exact (derivable_pt_lim_plus _ _ _ _ _ H1 H2)]. Qed.
Lemma deriv_mult k f g t p l l' : deriv k f t p l -> deriv k g t p l' -> deriv k (fun t p => f t p * g t p) t p (l * g t p + f t p * l').
Proof.
  destruct k as [i|]; intros H1 H2; [|exact (derivable_pt_lim_mult _ _ _ _ _ H1 H2)].
  pose proof (derivable_pt_lim_mult _ _ _ _ _ H1 H2) as H. cbv beta in H. rewrite at_self in H. exact H.
Qed.
Lemma deriv_eq k f t p l l' : deriv k f t p l -> l = l' -> deriv k f t p l'.
Proof. intros H <-. exact H. Qed.
Lemma dlim_local (f g : R -> R) x l (e : R) : 0 < e -> (forall y, Rabs (y - x) < e -> f y = g y) -> derivable_pt_lim f x l -> derivable_pt_lim g x l.
Proof.
  intros He H D eps Heps. destruct (D eps Heps) as [d Hd]. assert (Pm : 0 < Rmin d e) by (apply Rmin_pos; [apply cond_pos|auto]).
  exists (mkposreal _ Pm). intros h Nh Hh. cbn in Hh. pose proof (Rmin_l d e). pose proof (Rmin_r d e).
  rewrite <- (H (x + h)), <- (H x).
  - apply Hd; auto. lra.
  - replace (x - x) with 0 by ring. rewrite Rabs_R0. lra.
  - replace (x + h - x) with h by ring. lra.
Qed.
Section On.
  Variables (T0 T1 : R).
  Lemma deriv_unique k f g t p l l' : T0 < t < T1 -> (forall t p, T0 < t < T1 -> f t p = g t p) -> deriv k f t p l -> deriv k g t p l' -> l = l'.
  Proof.
    destruct k as [i|]; intros Ht E H1 H2; unfold deriv in *.
    - assert (Q : (fun s : R => f t (@at_coord RF p i s)) = (fun s : R => g t (@at_coord RF p i s))) by (apply functional_extensionality; intros s; apply E; exact Ht).
      rewrite Q in H1. exact (uniqueness_limite _ _ _ _ H1 H2).
    - apply (lim_unique (fun s => f s p) (fun s => g s p) ((T0 + t) / 2) ((t + T1) / 2) t); auto; try lra. intros s Hs. apply E. lra.
  Qed.
  Lemma deriv_ext k f g t p l : T0 < t < T1 -> (forall t p, T0 < t < T1 -> f t p = g t p) -> deriv k f t p l -> deriv k g t p l.
  Proof.
    destruct k as [i|]; intros Ht E H; unfold deriv in *.
    - assert (Q : (fun s : R => f t (@at_coord RF p i s)) = (fun s : R => g t (@at_coord RF p i s))) by (apply functional_extensionality; intros s; apply E; exact Ht).
      rewrite Q in H. exact H.
    - assert (P : 0 < Rmin (t - T0) (T1 - t)) by (apply Rmin_pos; lra).
      apply (dlim_local (fun s => f s p) (fun s => g s p) t l _ P); auto. intros y Hy. apply E.
      pose proof (Rmin_l (t - T0) (T1 - t)). pose proof (Rmin_r (t - T0) (T1 - t)). apply Rabs_def2 in Hy. lra.
  Qed.
End On.

Section Poly.
  Variables (n : nat) (T0 T1 : R) (X : Type) (rho : X -> R -> point -> R).
  Definition spoly := list (R * list X).
  Variable delta : option nat -> X -> spoly.
  Definition mval (m : list X) (t : R) (p : point) : R := fold_right (fun x r => rho x t p * r) 1 m.
  Definition pval (P : spoly) (t : R) (p : point) : R := fold_right (fun cm r => fst cm * mval (snd cm) t p + r) 0 P.
  Definition times (Q : spoly) (r : list X) : spoly := map (fun cm => (fst cm, snd cm ++ r)) Q.
  Definition xtimes (x : X) (Q : spoly) : spoly := map (fun cm => (fst cm, x :: snd cm)) Q.
  Definition scaled (c : R) (Q : spoly) : spoly := map (fun cm => (c * fst cm, snd cm)) Q.
  Fixpoint dmono (k : option nat) (m : list X) : spoly :=
    match m with [] => [] | x :: r => times (delta k x) r ++ xtimes x (dmono k r) end.
  Definition dpoly (k : option nat) (P : spoly) : spoly := flat_map (fun cm => scaled (fst cm) (dmono k (snd cm))) P.

  Lemma pval_cons c m P t p : pval ((c, m) :: P) t p = c * mval m t p + pval P t p.
  Proof. reflexivity. Qed.
  Lemma pval_nil t p : pval [] t p = 0.
  Proof. reflexivity. Qed.
  Lemma mval_cons x m t p : mval (x :: m) t p = rho x t p * mval m t p.
  Proof. reflexivity. Qed.
  Lemma mval_nil t p : mval [] t p = 1.
  Proof. reflexivity. Qed.
  Lemma pval_app P Q t p : pval (P ++ Q) t p = pval P t p + pval Q t p.
  Proof. induction P as [|[c m] P IH]; [cbn [app]; rewrite pval_nil; ring|]. cbn [app]. rewrite !pval_cons, IH. ring. Qed.
  Lemma mval_app m r t p : mval (m ++ r) t p = mval m t p * mval r t p.
  Proof. induction m as [|x m IH]; cbn [app]; [rewrite mval_nil; ring|]. rewrite !mval_cons, IH. ring. Qed.
  Lemma pval_times Q r t p : pval (times Q r) t p = pval Q t p * mval r t p.
  Proof. unfold times. induction Q as [|[c m] Q IH]; cbn [map fst snd]; [rewrite pval_nil; ring|]. rewrite !pval_cons, IH, mval_app. ring. Qed.
  Lemma pval_xtimes x Q t p : pval (xtimes x Q) t p = rho x t p * pval Q t p.
  Proof. unfold xtimes. induction Q as [|[c m] Q IH]; cbn [map fst snd]; [rewrite pval_nil; ring|]. rewrite !pval_cons, IH, mval_cons. ring. Qed.
  Lemma pval_scaled c Q t p : pval (scaled c Q) t p = c * pval Q t p.
  Proof. unfold scaled. induction Q as [|[d m] Q IH]; cbn [map fst snd]; [rewrite pval_nil; ring|]. rewrite !pval_cons, IH. ring. Qed.
  Lemma dpoly_app k P Q : dpoly k (P ++ Q) = dpoly k P ++ dpoly k Q.
  Proof. apply flat_map_app. Qed.
  Lemma pval_dmono_cons k x r t p : pval (dmono k (x :: r)) t p = pval (delta k x) t p * mval r t p + rho x t p * pval (dmono k r) t p.
  Proof. cbn [dmono]. rewrite pval_app, pval_times, pval_xtimes. reflexivity. Qed.
  Lemma pval_dmono_app k m r t p : pval (dmono k (m ++ r)) t p = pval (dmono k m) t p * mval r t p + mval m t p * pval (dmono k r) t p.
  Proof.
    induction m as [|x m IH]; [cbn [app dmono]; rewrite pval_nil, mval_nil; ring|]. change ((x :: m) ++ r) with (x :: (m ++ r)). rewrite !pval_dmono_cons, IH, mval_app.
    rewrite mval_cons. ring.
  Qed.
  Lemma pval_dpoly_cons k c m P t p : pval (dpoly k ((c, m) :: P)) t p = c * pval (dmono k m) t p + pval (dpoly k P) t p.
  Proof. change (dpoly k ((c, m) :: P)) with (scaled c (dmono k m) ++ dpoly k P). rewrite pval_app, pval_scaled. reflexivity. Qed.
  Lemma pval_dpoly_times k Q r t p : pval (dpoly k (times Q r)) t p = pval (dpoly k Q) t p * mval r t p + pval Q t p * pval (dmono k r) t p.
  Proof.
    induction Q as [|[c m] Q IH]; [cbn [times xtimes map dpoly flat_map]; rewrite !pval_nil; ring|]. change (times ((c, m) :: Q) r) with ((c, m ++ r) :: times Q r).
    rewrite !pval_dpoly_cons, pval_cons, IH, pval_dmono_app. ring.
  Qed.
  Lemma pval_dpoly_xtimes k x Q t p : pval (dpoly k (xtimes x Q)) t p = pval (delta k x) t p * pval Q t p + rho x t p * pval (dpoly k Q) t p.
  Proof.
    induction Q as [|[c m] Q IH]; [cbn [times xtimes map dpoly flat_map]; rewrite !pval_nil; ring|]. change (xtimes x ((c, m) :: Q)) with ((c, x :: m) :: xtimes x Q).
    rewrite !pval_dpoly_cons, pval_cons, IH, pval_dmono_cons. ring.
  Qed.
  Lemma pval_dpoly_scaled k c Q t p : pval (dpoly k (scaled c Q)) t p = c * pval (dpoly k Q) t p.
  Proof.
    induction Q as [|[d m] Q IH]; [cbn [scaled map dpoly flat_map]; rewrite !pval_nil; ring|]. change (scaled c ((d, m) :: Q)) with ((c * d, m) :: scaled c Q).
    rewrite !pval_dpoly_cons, IH. ring.
  Qed.

  Definition valid (k : option nat) : Prop := match k with None => True | Some i => (i < n)%nat end.
  Notation on t := (T0 < t < T1).
  Hypothesis HD : forall k x t p, valid k -> on t -> deriv k (rho x) t p (pval (delta k x) t p).
  Hypothesis HC : forall k l x t p, valid k -> valid l -> on t -> pval (dpoly k (delta l x)) t p = pval (dpoly l (delta k x)) t p.
  Hypothesis HB : forall x, exists B, forall t p, on t -> Rabs (rho x t p) <= B.

  Lemma dmono_deriv k m t p : valid k -> on t -> deriv k (mval m) t p (pval (dmono k m) t p).
  Proof.
    intros Hk Ht. induction m as [|x m IH]; [apply deriv_const|]. eapply deriv_eq; [apply (deriv_mult k (rho x) (mval m)); [apply HD; auto|exact IH]|].
    rewrite pval_dmono_cons. ring.
  Qed.
  Lemma dpoly_deriv k P t p : valid k -> on t -> deriv k (pval P) t p (pval (dpoly k P) t p).
  Proof.
    intros Hk Ht. induction P as [|[c m] P IH]; [apply deriv_const|].
    eapply deriv_eq; [apply (deriv_plus k (fun t p => c * mval m t p) (pval P)); [apply (deriv_mult k (fun _ _ => c) (mval m)); [apply deriv_const|apply dmono_deriv; auto]|exact IH]|].
    rewrite pval_dpoly_cons. ring.
  Qed.
  Definition same (P Q : spoly) : Prop := forall t p, on t -> pval P t p = pval Q t p.
  Lemma dpoly_same k P Q : valid k -> same P Q -> same (dpoly k P) (dpoly k Q).
  Proof. intros Hk H t p Ht. eapply (deriv_unique T0 T1); [exact Ht|exact H|apply dpoly_deriv; auto|apply dpoly_deriv; auto]. Qed.
  Lemma dmono_comm k l m t p : valid k -> valid l -> on t -> pval (dpoly k (dmono l m)) t p = pval (dpoly l (dmono k m)) t p.
  Proof.
    intros Hk Hl Ht. induction m as [|x m IH]; [reflexivity|]. cbn [dmono]. rewrite !dpoly_app, !pval_app, !pval_dpoly_times, !pval_dpoly_xtimes, IH, (HC k l) by auto. ring.
  Qed.
  Lemma dpoly_comm k l P : valid k -> valid l -> same (dpoly k (dpoly l P)) (dpoly l (dpoly k P)).
  Proof.
    intros Hk Hl t p Ht. induction P as [|[c m] P IH]; [reflexivity|].
    change (dpoly l ((c, m) :: P)) with (scaled c (dmono l m) ++ dpoly l P). change (dpoly k ((c, m) :: P)) with (scaled c (dmono k m) ++ dpoly k P).
    rewrite !dpoly_app, !pval_app, !pval_dpoly_scaled, IH, (dmono_comm k l) by auto. reflexivity.
  Qed.
  Lemma iter_same k j P Q : valid k -> same P Q -> same (Nat.iter j (dpoly k) P) (Nat.iter j (dpoly k) Q).
  Proof. intros Hk H. induction j as [|j IH]; [exact H|]. cbn. apply dpoly_same; auto. Qed.
  Lemma iter_comm k l j P : valid k -> valid l -> same (dpoly k (Nat.iter j (dpoly l) P)) (Nat.iter j (dpoly l) (dpoly k P)).
  Proof.
    intros Hk Hl. induction j as [|j IH]; [intros t p _; reflexivity|]. intros t p Ht. cbn [Nat.iter nat_rect].
    change (nat_rect (fun _ : nat => spoly) P (fun _ : nat => dpoly l) j) with (Nat.iter j (dpoly l) P).
    change (nat_rect (fun _ : nat => spoly) (dpoly k P) (fun _ : nat => dpoly l) j) with (Nat.iter j (dpoly l) (dpoly k P)).
    rewrite (dpoly_comm k l) by auto. apply dpoly_same; auto.
  Qed.
  Definition along_list (a : multi) (P : spoly) (l : list nat) : spoly := fold_right (fun i Q => Nat.iter (a i) (dpoly (Some i)) Q) P l.
  Lemma along_out a P i l : ~ In i l -> along_list (inc i a) P l = along_list a P l.
  Proof.
    induction l as [|j l IH]; intros H; [reflexivity|]. cbn [along_list fold_right]. cbn in H. fold (along_list (inc i a) P l). fold (along_list a P l).
    rewrite IH by intuition. f_equal. unfold inc. destruct (Nat.eq_dec i j); [intuition|reflexivity].
  Qed.
  Lemma along_in a P i l : (i < n)%nat -> (forall j, In j l -> (j < n)%nat) -> NoDup l -> In i l ->
    same (dpoly (Some i) (along_list a P l)) (along_list (inc i a) P l).
  Proof.
    intros Hi. induction l as [|j l IH]; intros Hl ND I; [destruct I|]. inversion ND; subst. cbn [along_list fold_right].
    fold (along_list a P l). fold (along_list (inc i a) P l). destruct (Nat.eq_dec i j) as [->|N].
    - rewrite along_out by auto. unfold inc at 1. destruct (Nat.eq_dec j j); [|congruence]. intros t p Ht. reflexivity.
    - destruct I as [->|I]; [congruence|]. intros t p Ht. rewrite (iter_comm (Some i) (Some j)); auto; [|apply Hl; left; auto].
      unfold inc at 1. destruct (Nat.eq_dec i j); [congruence|]. apply iter_same; auto; [apply Hl; left; auto|]. apply IH; auto. intros; apply Hl; right; auto.
  Qed.
  Definition fam (P : spoly) (m : nat) (a : multi) : spoly := Nat.iter m (dpoly None) (along_list a P (seq 0 n)).
  Lemma fam_inc P m a i : (i < n)%nat -> same (dpoly (Some i) (fam P m a)) (fam P m (inc i a)).
  Proof.
    intros Hi t p Ht. unfold fam. rewrite (iter_comm (Some i) None); auto; [|exact I]. apply iter_same; auto; [exact I|].
    apply along_in; auto; [intros j Hj; apply in_seq in Hj; lia|apply seq_NoDup|apply in_seq; lia].
  Qed.
  Lemma along_none P l : along_list none P l = P.
  Proof. induction l as [|j l IH]; [reflexivity|]. cbn. exact IH. Qed.
  Lemma mval_bounded m : exists B, forall t p, on t -> Rabs (mval m t p) <= B.
  Proof.
    induction m as [|x m (B & HBm)]; [exists 1; intros; cbn; rewrite Rabs_R1; lra|]. destruct (HB x) as (C & HC'). exists (C * B). intros t p Ht. cbn.
    rewrite Rabs_mult. apply Rmult_le_compat; auto; try apply Rabs_pos. apply HBm; auto.
  Qed.
  Lemma pval_bounded P : exists B, forall t p, on t -> Rabs (pval P t p) <= B.
  Proof.
    induction P as [|[c m] P (B & HBP)]; [exists 0; intros; cbn; rewrite Rabs_R0; lra|]. destruct (mval_bounded m) as (C & HCm). exists (Rabs c * C + B). intros t p Ht.
    rewrite pval_cons. eapply Rle_trans; [apply Rabs_triang|]. apply Rplus_le_compat; auto. rewrite Rabs_mult. apply Rmult_le_compat_l; [apply Rabs_pos|auto].
  Qed.
  Theorem poly_family P : family n T0 T1 (fun m t a p => pval (fam P m a) t p).
  Proof.
    split.
    - intros m t Ht a i p Hi. rewrite <- (fam_inc P m a i Hi t p Ht). exact (dpoly_deriv (Some i) (fam P m a) t p Hi Ht).
    - intros m a t p Ht. exact (dpoly_deriv None (fam P m a) t p I Ht).
    - intros m a. destruct (pval_bounded (fam P m a)) as (B & H). exists B. auto.
  Qed.
  Theorem poly_smooth P : smoothf n T0 T1 (pval P).
  Proof. exists (fun m t a p => pval (fam P m a) t p). split; [apply poly_family|]. intros t p _. unfold fam. cbn. rewrite along_none. reflexivity. Qed.
End Poly.

(** ** polynomials in the derivatives of smooth functions [u j] and in other functions [sigma y] *)
Section Closure.
  Variables (n : nat) (T0 T1 : R) (J Y : Type) (u : J -> nat -> R -> multi -> point -> R) (sigma : Y -> R -> point -> R).
  Definition satom := (J * nat * multi + Y)%type.
  Definition jet (j : J) (m : nat) (a : multi) : satom := inl (j, m, a).
  Definition extra (y : Y) : satom := inr y.
  Variable dY : option nat -> Y -> spoly satom.
  Definition rhoX (x : satom) (t : R) (p : point) : R := match x with inl (j, m, a) => u j m t a p | inr y => sigma y t p end.
  Definition stepped (k : option nat) (j : J) (m : nat) (a : multi) : satom := match k with None => jet j (S m) a | Some i => jet j m (inc i a) end.
  Definition deltaX (k : option nat) (x : satom) : spoly satom := match x with inl (j, m, a) => [(1, [stepped k j m a])] | inr y => dY k y end.
  Notation on t := (T0 < t < T1).
  Hypothesis HF : forall j, family n T0 T1 (u j).
  Hypothesis YD : forall k y t p, valid n k -> on t -> deriv k (sigma y) t p (pval satom rhoX (dY k y) t p).
  Hypothesis YC : forall k l y t p, valid n k -> valid n l -> on t -> pval satom rhoX (dpoly satom deltaX k (dY l y)) t p = pval satom rhoX (dpoly satom deltaX l (dY k y)) t p.
  Hypothesis YB : forall y, exists B, forall t p, on t -> Rabs (sigma y t p) <= B.
  Lemma stepped_comm k l j m a : match stepped l j m a with inl (j, m, a) => stepped k j m a | x => x end = match stepped k j m a with inl (j, m, a) => stepped l j m a | x => x end.
  Proof. destruct k as [i|], l as [i'|]; cbn; auto. rewrite inc_comm. reflexivity. Qed.
  Theorem closure_smooth P : smoothf n T0 T1 (pval satom rhoX P).
  Proof.
    apply (poly_smooth n T0 T1 satom rhoX deltaX).
    - intros k [[[j m] a]|y] t p Hk Ht; [|exact (YD k y t p Hk Ht)]. cbn [deltaX]. eapply deriv_eq; [|rewrite pval_cons, pval_nil, mval_cons, mval_nil; rewrite Rmult_1_r, Rmult_1_l, Rplus_0_r; reflexivity].
      destruct k as [i|]; [exact (fa_space _ _ _ _ (HF j) m t Ht a i p Hk)|exact (fa_time _ _ _ _ (HF j) m a t p Ht)].
    - intros k l [[[j m] a]|y] t p Hk Hl Ht; [|exact (YC k l y t p Hk Hl Ht)]. cbn [deltaX]. rewrite !pval_dpoly_cons, !pval_dmono_cons, !mval_nil. cbn [dmono dpoly flat_map]. rewrite !pval_nil.
      pose proof (stepped_comm k l j m a) as E. destruct k as [i|], l as [i'|]; cbn [stepped jet deltaX]; rewrite ?pval_cons, ?mval_cons, ?mval_nil, ?pval_nil; cbn in E; try rewrite E; ring.
    - intros [[[j m] a]|y]; [exact (fa_bounded _ _ _ _ (HF j) m a)|apply YB].
  Qed.
End Closure.

Section Rules.
  Variables (n : nat) (T0 T1 : R).
  Notation smooth := (smoothf n T0 T1).
  Notation on t := (T0 < t < T1).
  Lemma smooth_ext f g : (forall t p, on t -> f t p = g t p) -> smooth f -> smooth g.
  Proof. intros E (u & F & V). exists u. split; auto. intros t p Ht. rewrite V, E by auto. reflexivity. Qed.
  Lemma no_atoms (P : Empty_set -> Prop) : forall y, P y. Proof. intros []. Qed.
  Lemma smooth_two f g : smooth f -> smooth g -> exists u : bool -> nat -> R -> multi -> point -> R, (forall j, family n T0 T1 (u j)) /\
    (forall t p, on t -> u true O t none p = f t p) /\ (forall t p, on t -> u false O t none p = g t p).
  Proof. intros (uf & Ff & Vf) (ug & Fg & Vg). exists (fun j => if j : bool then uf else ug). split; [intros [|]; auto|auto]. Qed.
  Notation P2 := (closure_smooth n T0 T1 bool Empty_set).
  Lemma smooth_plus f g : smooth f -> smooth g -> smooth (fun t p => f t p + g t p).
  Proof.
    intros Hf Hg. destruct (smooth_two f g Hf Hg) as (u & Fu & V1 & V2).
    pose proof (P2 u (fun y => match y with end) (fun _ y => match y with end) Fu (fun _ y => match y with end) (fun _ _ y => match y with end) (fun y => match y with end)
      [(1, [jet _ _ true O none]); (1, [jet _ _ false O none])]) as H.
    eapply smooth_ext; [|exact H]. intros t p Ht. rewrite !pval_cons, !mval_cons, !mval_nil, pval_nil. cbn [rhoX jet]. rewrite V1, V2 by auto. ring.
  Qed.
  Lemma smooth_mult f g : smooth f -> smooth g -> smooth (fun t p => f t p * g t p).
  Proof.
    intros Hf Hg. destruct (smooth_two f g Hf Hg) as (u & Fu & V1 & V2).
    pose proof (P2 u (fun y => match y with end) (fun _ y => match y with end) Fu (fun _ y => match y with end) (fun _ _ y => match y with end) (fun y => match y with end)
      [(1, [jet _ _ true O none; jet _ _ false O none])]) as H.
    eapply smooth_ext; [|exact H]. intros t p Ht. rewrite !pval_cons, !mval_cons, !mval_nil, pval_nil. cbn [rhoX jet]. rewrite V1, V2 by auto. ring.
  Qed.
  Lemma smooth_const c : smooth (fun _ _ => c).
  Proof.
    exists (fun m _ a _ => match m with O => if forallb (fun i => Nat.eqb (a i) 0) (seq 0 n) then c else 0 | _ => 0 end). split; [split|].
    - intros m t _ a i p Hi. destruct m as [|m]; [|apply derivable_pt_lim_const].
      replace (forallb (fun k => Nat.eqb (inc i a k) 0) (seq 0 n)) with false; [apply derivable_pt_lim_const|]. symmetry. apply not_true_is_false. intros H.
      rewrite forallb_forall in H. specialize (H i ltac:(apply in_seq; lia)). unfold inc in H. destruct (Nat.eq_dec i i); [discriminate|congruence].
    - intros m a t p _. destruct m; apply derivable_pt_lim_const.
    - intros m a. exists (Rabs c). intros t p _. destruct m; [destruct (forallb _ _)|]; rewrite ?Rabs_R0; auto using Rabs_pos; lra.
    - intros t p _. replace (forallb (fun i => Nat.eqb (none i) 0) (seq 0 n)) with true; [reflexivity|]. symmetry. apply forallb_forall. intros; reflexivity.
  Qed.
  Lemma smooth_scale c f : smooth f -> smooth (fun t p => c * f t p).
  Proof. intros H. apply (smooth_mult (fun _ _ => c) f); auto. apply smooth_const. Qed.
  Lemma smooth_sum N (f : nat -> R -> point -> R) : (forall r, (r < N)%nat -> smooth (f r)) -> smooth (fun t p => sumk N (fun r => f r t p)).
  Proof.
    intros H. unfold sumk. assert (G : forall l, (forall r, In r l -> (r < N)%nat) -> smooth (fun t p => fold_right Rplus 0 (map (fun r => f r t p) l))).
    { induction l as [|r l IH]; intros Hl; cbn [map fold_right]; [apply smooth_const|]. apply smooth_plus; [apply H, Hl; left; auto|]. apply IH. intros; apply Hl; right; auto. }
    apply G. intros r Hr. apply in_seq in Hr. lia.
  Qed.
  (** the derivatives of a smooth function *)
  Lemma smooth_deriv k f : valid n k -> smooth f -> exists g, smooth g /\ forall t p, on t -> deriv k f t p (g t p).
  Proof.
    intros Hk (u & [F1 F2 F3] & V). exists (fun t p => match k with None => u 1%nat t none p | Some i => u O t (inc i none) p end). split.
    - destruct k as [i|].
      + exists (fun m t a p => u m t (inc i a) p). split; [split|reflexivity].
        * intros m t Ht a j p Hj. rewrite inc_comm. exact (F1 m t Ht (inc i a) j p Hj).
        * intros m a t p Ht. apply F2; auto.
        * intros m a. apply F3.
      + exists (fun m t a p => u (S m) t a p). split; [split|reflexivity].
        * intros m t Ht a j p Hj. exact (F1 (S m) t Ht a j p Hj).
        * intros m a t p Ht. apply F2; auto.
        * intros m a. apply F3.
    - intros t p Ht. eapply (deriv_ext T0 T1); [exact Ht|exact V|]. destruct k as [i|]; [exact (F1 O t Ht none i p Hk)|exact (F2 O none t p Ht)].
  Qed.
  Lemma smooth_of_family u m a : family n T0 T1 u -> smooth (fun t p => u m t a p).
  Proof.
    intros [F1 F2 F3]. exists (fun m' t a' p => u (m' + m)%nat t (fun i => a' i + a i)%nat p). split; [split|].
    - intros m' t Ht a' i p Hi. replace (fun j => (inc i a' j + a j)%nat) with (inc i (fun j => (a' j + a j)%nat)); [exact (F1 (m' + m)%nat t Ht _ i p Hi)|].
      apply functional_extensionality. intros j. unfold inc. destruct (Nat.eq_dec i j); reflexivity.
    - intros m' a' t p Ht. exact (F2 (m' + m)%nat _ t p Ht).
    - intros m' a'. apply F3.
    - reflexivity.
  Qed.
End Rules.

(** ** the inverse of a square root *)
Section InvSqrt.
  Variables (n : nat) (T0 T1 : R) (f : R -> point -> R) (c : R).
  Notation on t := (T0 < t < T1).
  Hypothesis Hc : 0 < c.
  Hypothesis Hf : smoothf n T0 T1 f.
  Hypothesis Hlow : forall t p, on t -> c <= f t p.
  Lemma isqrt_lim (x : R) : 0 < x -> derivable_pt_lim (fun y => / sqrt y) x (- / 2 * (/ sqrt x * (/ sqrt x * / sqrt x))).
  Proof.
    intros Hx. pose proof (sqrt_lt_R0 x Hx) as Hs.
    pose proof (derivable_pt_lim_div (fun _ => 1) sqrt x 0 (/ (2 * sqrt x)) (derivable_pt_lim_const 1 x) (derivable_pt_lim_sqrt x Hx) ltac:(lra)) as H.
    assert (E : div_fct (fun _ => 1) sqrt = (fun y => / sqrt y)) by (apply functional_extensionality; intros y; unfold div_fct, Rdiv; ring). rewrite E in H.
    replace (- / 2 * (/ sqrt x * (/ sqrt x * / sqrt x))) with ((0 * sqrt x - / (2 * sqrt x) * 1) / Rsqr (sqrt x)); [exact H|]. unfold Rsqr. field. lra.
  Qed.
  Lemma deriv_isqrt k t p l : on t -> deriv k f t p l -> deriv k (fun t p => / sqrt (f t p)) t p (- / 2 * (/ sqrt (f t p) * (/ sqrt (f t p) * / sqrt (f t p))) * l).
  Proof.
    intros Ht D. assert (P : 0 < f t p) by (pose proof (Hlow t p Ht); lra). destruct k as [i|]; unfold deriv in *.
    - pose proof (derivable_pt_lim_comp (fun s : R => f t (@at_coord RF p i s)) (fun y => / sqrt y) (p i) l (- / 2 * (/ sqrt (f t p) * (/ sqrt (f t p) * / sqrt (f t p)))) D) as H. cbv beta in H. rewrite at_self in H. exact (H (isqrt_lim _ P)).
    - exact (derivable_pt_lim_comp (fun s : R => f s p) (fun y => / sqrt y) t l _ D (isqrt_lim _ P)).
  Qed.
  Lemma smooth_isqrt : smoothf n T0 T1 (fun t p => / sqrt (f t p)).
  Proof.
    destruct Hf as (u & Fu & V). pose (q := extra unit unit tt). pose (fk := fun k => stepped unit unit k tt O none).
    pose (dY := fun (k : option nat) (_ : unit) => [(- / 2, [q; q; q; fk k])]).
    assert (FD : forall k t p, valid n k -> on t -> deriv k f t p (rhoX unit unit (fun _ => u) (fun _ t p => / sqrt (f t p)) (fk k) t p)).
    { intros k t p Hk Ht. eapply (deriv_ext T0 T1); [exact Ht|exact V|]. destruct Fu as [F1 F2 F3]. destruct k as [i|]; [exact (F1 O t Ht none i p Hk)|exact (F2 O none t p Ht)]. }
    pose proof (closure_smooth n T0 T1 unit unit (fun _ => u) (fun _ t p => / sqrt (f t p)) dY (fun _ => Fu)) as H.
    eapply smooth_ext; [|apply H].
    4: { intros _. exists (/ sqrt c). intros t p Ht. pose proof (sqrt_lt_R0 c Hc). pose proof (sqrt_le_1 c (f t p) ltac:(lra) ltac:(pose proof (Hlow t p Ht); lra) (Hlow t p Ht)).
         rewrite Rabs_pos_eq by (left; apply Rinv_0_lt_compat; lra). apply Rinv_le_contravar; lra. }
    1: { intros t p Ht. instantiate (1 := [(1, [q])]). rewrite pval_cons, pval_nil, mval_cons, mval_nil. cbn [rhoX q extra]. ring. }
    - intros k [] t p Hk Ht. unfold dY. rewrite pval_cons, pval_nil, !mval_cons, mval_nil. eapply deriv_eq; [exact (deriv_isqrt k t p _ Ht (FD k t p Hk Ht))|]. cbn [rhoX q extra]. ring.
    - intros k l [] t p Hk Hl Ht. unfold dY. rewrite !pval_dpoly_cons, !pval_dmono_cons. cbn [dmono dpoly flat_map]. rewrite !pval_nil, !mval_cons, !mval_nil. cbn [deltaX q extra].
      rewrite !pval_cons, !pval_nil, !mval_cons, !mval_nil. cbn [rhoX]. pose proof (stepped_comm unit unit k l tt O none) as E.
      destruct k as [i|], l as [i'|]; cbn [fk stepped jet deltaX] in *; rewrite ?pval_cons, ?pval_nil, ?mval_cons, ?mval_nil; cbn [rhoX]; cbv [jet] in E; try (injection E as E; rewrite E); ring.
  Qed.
End InvSqrt.
