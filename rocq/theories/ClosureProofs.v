From Coq Require Import List Arith ZArith Bool String Permutation Lia.
From Verif Require Import PyBase PyBaseFacts PartialOrderModel PartialOrderSpec PartialOrderProofs NameModel NameProofs ClosureModel ClosureSpec.
Import ListNotations.
Open Scope list_scope.
Open Scope Z_scope.

(** ** factorials *)
Lemma factorial_0 : factorial 0 = 1.
Proof. reflexivity. Qed.
Lemma factorial_S n : 0 <= n -> factorial (n + 1) = factorial n * (n + 1).
Proof.
  intros H. unfold factorial. replace (Z.to_nat (n + 1)) with (S (Z.to_nat n)) by lia. cbn [fact].
  change (fact (Z.to_nat n) + Z.to_nat n * fact (Z.to_nat n))%nat with (S (Z.to_nat n) * fact (Z.to_nat n))%nat. rewrite Nat2Z.inj_mul. lia.
Qed.
Lemma factorial_pos n : 0 < factorial n.
Proof. unfold factorial. pose proof (lt_O_fact (Z.to_nat n)). lia. Qed.
Lemma mfactorial_pos a : 0 < mfactorial a.
Proof. induction a as [|x a IH]; cbn [mfactorial fold_right]; [lia|]. pose proof (factorial_pos x). fold (mfactorial a). nia. Qed.

(** a! b! <= (a+b)!, with equality only when one of them is null *)
Lemma fact_add_nat a b : (fact a * fact b <= fact (a + b))%nat.
Proof.
  induction a as [|a IH]; cbn [fact plus]; [lia|].
  change (fact a + a * fact a)%nat with (S a * fact a)%nat. change (fact (a + b) + (a + b) * fact (a + b))%nat with (S (a + b) * fact (a + b))%nat. nia.
Qed.
Lemma fact_add_strict a b : (0 < a -> 0 < b -> fact a * fact b < fact (a + b))%nat.
Proof.
  intros Ha Hb. destruct a as [|a]; [lia|]. cbn [fact plus].
  change (fact a + a * fact a)%nat with (S a * fact a)%nat. change (fact (a + b) + (a + b) * fact (a + b))%nat with (S (a + b) * fact (a + b))%nat.
  pose proof (fact_add_nat a b). pose proof (lt_O_fact a). pose proof (lt_O_fact b). nia.
Qed.
Lemma factorial_add a b : 0 <= a -> 0 <= b -> factorial a * factorial b <= factorial (a + b).
Proof.
  intros Ha Hb. unfold factorial. rewrite Z2Nat.inj_add by assumption. pose proof (fact_add_nat (Z.to_nat a) (Z.to_nat b)). lia.
Qed.
Lemma factorial_add_strict a b : 0 < a -> 0 < b -> factorial a * factorial b < factorial (a + b).
Proof.
  intros Ha Hb. unfold factorial. rewrite Z2Nat.inj_add by lia. pose proof (fact_add_strict (Z.to_nat a) (Z.to_nat b)). lia.
Qed.
Lemma degree_nonneg a : (forall z, In z a -> 0 <= z) -> 0 <= fold_right Z.add 0 a.
Proof. induction a as [|x a IH]; intros H; cbn; [lia|]. pose proof (H x (or_introl eq_refl)). assert (0 <= fold_right Z.add 0 a) by (apply IH; intros; apply H; now right). lia. Qed.
Lemma mfactorial_le a : (forall z, In z a -> 0 <= z) -> mfactorial a <= factorial (fold_right Z.add 0 a).
Proof.
  induction a as [|x a IH]; intros H; [cbn; unfold factorial; cbn; lia|]. cbn [mfactorial fold_right]. fold (mfactorial a).
  assert (Ha : forall z, In z a -> 0 <= z) by (intros; apply H; now right). pose proof (IH Ha). pose proof (degree_nonneg a Ha).
  pose proof (H x (or_introl eq_refl)). pose proof (factorial_add x (fold_right Z.add 0 a)). pose proof (factorial_pos x). nia.
Qed.
Lemma zero_degree a : (forall z, In z a -> 0 <= z) -> fold_right Z.add 0 a = 0 -> forall i, nth i a 0 = 0.
Proof.
  induction a as [|x a IH]; intros H D i; [destruct i; reflexivity|]. cbn in D.
  assert (Ha : forall z, In z a -> 0 <= z) by (intros; apply H; now right). pose proof (degree_nonneg a Ha). pose proof (H x (or_introl eq_refl)).
  destruct i; cbn; [lia|]. apply IH; [exact Ha|lia].
Qed.
Lemma mfactorial_zero a : (forall i, nth i a 0 = 0) -> mfactorial a = 1 /\ fold_right Z.add 0 a = 0.
Proof.
  induction a as [|x a IH]; intros H; [auto|]. pose proof (H 0%nat) as H0. cbn in H0. subst x.
  destruct IH as [A B]; [intros i; exact (H (S i))|]. cbn [mfactorial fold_right]. fold (mfactorial a). rewrite A, B. auto.
Qed.
Lemma single_iff a : (forall z, In z a -> 0 <= z) -> (mfactorial a = factorial (fold_right Z.add 0 a) <-> single a).
Proof.
  induction a as [|x a IH]; intros H.
  - split; [intros _ i j Hi; destruct i; cbn in Hi; congruence|reflexivity].
  - assert (Ha : forall z, In z a -> 0 <= z) by (intros; apply H; now right). pose proof (H x (or_introl eq_refl)) as Hx. specialize (IH Ha).
    pose proof (degree_nonneg a Ha) as Hd. cbn [mfactorial fold_right]. fold (mfactorial a).
    destruct (Z.eq_dec x 0) as [->|Nx].
    + rewrite factorial_0, Z.mul_1_l, Z.add_0_l. rewrite IH. split.
      * intros S [|i] [|j] Hi Hj; cbn in Hi, Hj; try lia. f_equal. apply S; assumption.
      * intros S i j Hi Hj. pose proof (S (Datatypes.S i) (Datatypes.S j) Hi Hj). lia.
    + destruct (Z.eq_dec (fold_right Z.add 0 a) 0) as [E|N].
      * pose proof (zero_degree a Ha E) as Z0. destruct (mfactorial_zero a Z0) as [-> _]. rewrite E, Z.add_0_r, Z.mul_1_r. split; [|reflexivity].
        intros _ [|i] [|j] Hi Hj; cbn in Hi, Hj; rewrite ?Z0 in Hi, Hj; try lia; congruence.
      * pose proof (factorial_add_strict x (fold_right Z.add 0 a) ltac:(lia) ltac:(lia)). pose proof (mfactorial_le a Ha). pose proof (factorial_pos x).
        split; [intros; exfalso; nia|]. intros S. exfalso. apply N.
        assert (Z0 : forall i, nth i a 0 = 0).
        { intros i. destruct (Z.eq_dec (nth i a 0) 0); [assumption|]. pose proof (S 0%nat (Datatypes.S i) Nx n). discriminate. }
        exact (proj2 (mfactorial_zero a Z0)).
Qed.

(** ** derivatives of series *)
Section SeriesFacts.
  Context {E : Type} (ezero : E) (mulZ : Z -> E -> E) (M : integer_module ezero mulZ).
  Definition bump (i : nat) (n : Z) (al : list Z) : list Z := set_nth i (nth i al 0 + n) al.
  Lemma set_nth_twice {A} i (x y : A) l : set_nth i x (set_nth i y l) = set_nth i x l.
  Proof. revert i. induction l as [|a l IH]; intros [|i]; cbn; try reflexivity. f_equal. apply IH. Qed.
  Lemma nth_set_same {A} i (x d : A) l : (i < List.length l)%nat -> nth i (set_nth i x l) d = x.
  Proof. revert i. induction l as [|a l IH]; intros [|i] H; cbn in *; try lia; [reflexivity|]. apply IH. lia. Qed.
  Lemma len_set_nth {A} i (x : A) l : List.length (set_nth i x l) = List.length l.
  Proof. revert i. induction l as [|a l IH]; intros [|i]; cbn; try reflexivity. f_equal. apply IH. Qed.
  Lemma nth_set_other {A} i j (x d : A) l : i <> j -> nth j (set_nth i x l) d = nth j l d.
  Proof. revert i j. induction l as [|a l IH]; intros [|i] [|j] H; cbn; try reflexivity; try lia. apply IH. lia. Qed.
  Lemma dpower_at i n c al : (i < List.length al)%nat -> nth i al 0 = 0 ->
    dpower E mulZ i n c al = mulZ (factorial (Z.of_nat n)) (c (bump i (Z.of_nat n) al)).
  Proof.
    intros Hi H0. unfold bump. rewrite H0. rewrite Z.add_0_l.
    (* generalise: at exponent k in position i *)
    assert (G : forall k, 0 <= k -> mulZ (factorial k) (dpower E mulZ i n c (set_nth i k al)) = mulZ (factorial (k + Z.of_nat n)) (c (set_nth i (k + Z.of_nat n) al))).
    { induction n as [|n IH]; intros k Hk.
      - cbn [dpower Nat.iter]. unfold dpower. cbn. now rewrite Z.add_0_r.
      - unfold dpower. cbn [Nat.iter nat_rect]. unfold dseries at 1. rewrite nth_set_same by exact Hi. rewrite set_nth_twice, (im_mul _ _ M).
        rewrite <- factorial_S by exact Hk. change (Nat.iter n (dseries E mulZ i) c) with (dpower E mulZ i n c).
        specialize (IH (k + 1) ltac:(lia)). unfold dpower in IH |- *. unfold Nat.iter in IH |- *. rewrite IH. replace (k + 1 + Z.of_nat n) with (k + Z.of_nat (S n)) by lia. reflexivity. }
    specialize (G 0 ltac:(lia)). rewrite factorial_0, (im_one _ _ M) in G. rewrite Z.add_0_l in G. rewrite <- G. f_equal.
    clear - H0 Hi. revert i Hi H0. induction al as [|a al IH]; intros [|i] Hi H0; cbn in *; try lia; [subst; reflexivity|]. f_equal. apply IH; [lia|exact H0].
  Qed.
  Lemma set_nth_app {A} (p : list A) x y q : set_nth (List.length p) y (p ++ x :: q) = p ++ y :: q.
  Proof. induction p; cbn; [reflexivity|]. now f_equal. Qed.
  Lemma dmulti_at al : forall p c, (forall z, In z al -> 0 <= z) ->
    dmulti E mulZ (List.length p) al c (p ++ repeat 0 (List.length al)) = mulZ (mfactorial al) (c (p ++ al)).
  Proof.
    induction al as [|a al IH]; intros p c H; cbn [dmulti List.length repeat].
    - cbn. now rewrite (im_one _ _ M).
    - rewrite dpower_at.
      + unfold bump. rewrite app_nth2, Nat.sub_diag by lia. cbn [nth]. rewrite set_nth_app. rewrite Z2Nat.id, Z.add_0_l by (apply H; now left).
        pose proof (IH (p ++ [a]) c ltac:(intros; apply H; now right)) as IH'. rewrite app_length in IH'. cbn [List.length] in IH'. replace (List.length p + 1)%nat with (S (List.length p)) in IH' by lia.
        rewrite <- !app_assoc in IH'. cbn [app] in IH'. rewrite IH'. rewrite (im_mul _ _ M). reflexivity.
      + rewrite app_length. cbn. lia.
      + rewrite app_nth2, Nat.sub_diag by lia. reflexivity.
  Qed.
  Lemma derivative_value al c : (forall z, In z al -> 0 <= z) -> derivative_at_zero E mulZ al c = mulZ (mfactorial al) (c al).
  Proof. intros H. unfold derivative_at_zero. exact (dmulti_at al [] c H). Qed.
  Lemma value_right_iff n al c : multi_index n (fold_right Z.add 0 al) al ->
    (mulZ (factorial (fold_right Z.add 0 al)) (c al) = derivative_at_zero E mulZ al c <-> single al \/ c al = ezero).
  Proof.
    intros (_ & H & _). rewrite derivative_value by exact H. rewrite <- (single_iff al H). split.
    - intros Heq. destruct (im_free _ _ M _ _ _ Heq) as [Q|Q]; [left; congruence|auto].
    - intros [->| ->]; [reflexivity|now rewrite !(im_zero _ _ M)].
  Qed.
End SeriesFacts.
