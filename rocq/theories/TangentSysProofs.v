(** First order expansions of the code of a right-hand side. *)
From Coq Require Import List Arith ZArith QArith Qreals Reals String Lia Lra Permutation FunctionalExtensionality.
From Verif Require Import PyBase PyBaseFacts Scalars FieldFacts SymModel RandomProofs PDEModel StrModel CodegenModel CodegenSpec CodegenProofs CodegenRun CodegenProps
  FDExprModel FDExprSpec FDExprProofs FDSpec FDReal GridModel GridSpec GridProofs GridMore ConsistSpec ConsistModel ConsistProofs ConsistMain
  ForecastModel ForecastSpec SchemesModel SchemesSpec EnsembleProofs ModelProofs LineModel TangentSpec TangentProofs TangentSysSpec.
Import ListNotations.
Close Scope Q_scope.
Open Scope nat_scope.
Open Scope string_scope.
Open Scope list_scope.
Open Scope R_scope.

Lemma Rabs_tri3 a b c : Rabs (a + b + c) <= Rabs a + Rabs b + Rabs c.
Proof. pose proof (Rabs_triang (a + b) c). pose proof (Rabs_triang a b). lra. Qed.
Lemma mul_abs x y a b : Rabs x <= a -> Rabs y <= b -> Rabs (x * y) <= a * b.
Proof. intros. rewrite Rabs_mult. apply Rmult_le_compat; auto using Rabs_pos. Qed.

(** ** expansions *)
Section Expansion.
  Context {X J : Type}.
  Variable sz : R -> X -> Prop.
  Variable P : J -> Prop.
  Definition expand (V : X -> J -> R) (v : J -> R) (l : X -> J -> R) : Prop :=
    exists M A B, 0 <= M /\ 0 <= A /\ 0 <= B /\ (forall j, P j -> Rabs (v j) <= M) /\
      (forall p m, 0 <= m <= 1 -> sz m p -> forall j, P j -> Rabs (V p j - (v j + l p j)) <= A * m ^ 2) /\
      (forall p m, 0 <= m -> sz m p -> forall j, P j -> Rabs (l p j) <= B * m).
  Lemma expand_ext V v l V' v' l' : (forall p j, P j -> V p j = V' p j) -> (forall j, P j -> v j = v' j) -> (forall p j, P j -> l p j = l' p j) ->
    expand V v l -> expand V' v' l'.
  Proof.
    intros E1 E2 E3 (M & A & B & M0 & A0 & B0 & HM & H & HB). exists M, A, B. repeat (split; [assumption|]). split; [|split].
    - intros j Hj. rewrite <- E2 by auto. auto.
    - intros p m Hm Hp j Hj. rewrite <- E1, <- E2, <- E3 by auto. apply H; auto.
    - intros p m Hm Hp j Hj. rewrite <- E3 by auto. apply HB; auto.
  Qed.
  Lemma expand_const c M : (forall j, P j -> Rabs (c j) <= M) -> expand (fun _ => c) c (fun _ _ => 0).
  Proof.
    intros H. exists (Rmax 0 M), 0, 0. split; [apply Rmax_l|]. split; [lra|]. split; [lra|]. split; [|split].
    - intros j Hj. eapply Rle_trans; [apply H; auto|apply Rmax_r].
    - intros p m Hm Hp j Hj. rewrite Rplus_0_r, Rminus_diag_eq, Rabs_R0 by auto. nra.
    - intros p m Hm Hp j Hj. rewrite Rabs_R0. nra.
  Qed.
  Lemma expand_add V v l V' v' l' : expand V v l -> expand V' v' l' ->
    expand (fun p j => V p j + V' p j) (fun j => v j + v' j) (fun p j => l p j + l' p j).
  Proof.
    intros (M & A & B & M0 & A0 & B0 & HM & H & HB) (M' & A' & B' & M0' & A0' & B0' & HM' & H' & HB').
    exists (M + M'), (A + A'), (B + B'). split; [lra|]. split; [lra|]. split; [lra|]. split; [|split].
    - intros j Hj. eapply Rle_trans; [apply Rabs_triang|]. specialize (HM j Hj). specialize (HM' j Hj). lra.
    - intros p m Hm Hp j Hj. pose proof (H p m Hm Hp j Hj) as a. pose proof (H' p m Hm Hp j Hj) as a'.
      replace (V p j + V' p j - (v j + v' j + (l p j + l' p j))) with ((V p j - (v j + l p j)) + (V' p j - (v' j + l' p j))) by ring.
      eapply Rle_trans; [apply Rabs_triang|]. lra.
    - intros p m Hm Hp j Hj. pose proof (HB p m Hm Hp j Hj) as b. pose proof (HB' p m Hm Hp j Hj) as b'.
      eapply Rle_trans; [apply Rabs_triang|]. lra.
  Qed.
  Lemma expand_mul V v l V' v' l' : expand V v l -> expand V' v' l' ->
    expand (fun p j => V p j * V' p j) (fun j => v j * v' j) (fun p j => l p j * v' j + v j * l' p j).
  Proof.
    intros (M & A & B & M0 & A0 & B0 & HM & H & HB) (M' & A' & B' & M0' & A0' & B0' & HM' & H' & HB').
    assert (P1 : 0 <= M * M') by (apply Rmult_le_pos; auto).
    assert (P2 : 0 <= B * B' + A * (M' + B' + A') + (M + B) * A').
    { apply Rplus_le_le_0_compat; [apply Rplus_le_le_0_compat|]; apply Rmult_le_pos; lra. }
    assert (P3 : 0 <= B * M' + M * B') by (apply Rplus_le_le_0_compat; apply Rmult_le_pos; auto).
    exists (M * M'), (B * B' + A * (M' + B' + A') + (M + B) * A'), (B * M' + M * B').
    split; [exact P1|]. split; [exact P2|]. split; [exact P3|]. split; [|split].
    - intros j Hj. apply mul_abs; auto.
    - intros p m Hm Hp j Hj. pose proof (H p m Hm Hp j Hj) as a. pose proof (H' p m Hm Hp j Hj) as a'.
      pose proof (HB p m (proj1 Hm) Hp j Hj) as b. pose proof (HB' p m (proj1 Hm) Hp j Hj) as b'.
      specialize (HM j Hj). specialize (HM' j Hj).
      replace (V p j * V' p j - (v j * v' j + (l p j * v' j + v j * l' p j)))
        with (l p j * l' p j + (V p j - (v j + l p j)) * (v' j + l' p j + (V' p j - (v' j + l' p j))) + (v j + l p j) * (V' p j - (v' j + l' p j))) by ring.
      assert (m2 : m ^ 2 <= 1) by (cbn; nra). assert (m3 : 0 <= m ^ 2) by (cbn; nra).
      eapply Rle_trans; [apply Rabs_tri3|].
      assert (T1 : Rabs (l p j * l' p j) <= (B * m) * (B' * m)) by (apply mul_abs; auto).
      assert (T2 : Rabs ((V p j - (v j + l p j)) * (v' j + l' p j + (V' p j - (v' j + l' p j)))) <= (A * m ^ 2) * (M' + B' + A')).
      { apply mul_abs; [auto|]. eapply Rle_trans; [apply Rabs_tri3|].
        assert (B' * m <= B' * 1) by (apply Rmult_le_compat_l; lra). assert (A' * m ^ 2 <= A' * 1) by (apply Rmult_le_compat_l; lra). lra. }
      assert (T3 : Rabs ((v j + l p j) * (V' p j - (v' j + l' p j))) <= (M + B) * (A' * m ^ 2)).
      { apply mul_abs; [|auto]. eapply Rle_trans; [apply Rabs_triang|]. assert (B * m <= B * 1) by (apply Rmult_le_compat_l; lra). lra. }
      replace ((B * B' + A * (M' + B' + A') + (M + B) * A') * m ^ 2)
        with ((B * m) * (B' * m) + (A * m ^ 2) * (M' + B' + A') + (M + B) * (A' * m ^ 2)) by ring. lra.
    - intros p m Hm Hp j Hj. pose proof (HB p m Hm Hp j Hj) as b. pose proof (HB' p m Hm Hp j Hj) as b'.
      specialize (HM j Hj). specialize (HM' j Hj).
      eapply Rle_trans; [apply Rabs_triang|].
      assert (Rabs (l p j * v' j) <= (B * m) * M') by (apply mul_abs; auto).
      assert (Rabs (v j * l' p j) <= M * (B' * m)) by (apply mul_abs; auto).
      replace ((B * M' + M * B') * m) with ((B * m) * M' + M * (B' * m)) by ring. lra.
  Qed.
  Lemma expand_pow n V v l : expand V v l -> expand (fun p j => V p j ^ n) (fun j => v j ^ n) (fun p j => INR n * v j ^ (pred n) * l p j).
  Proof.
    intros H. induction n as [|n IH].
    - apply (expand_ext (fun _ _ => 1) (fun _ => 1) (fun _ _ => 0)); [reflexivity|reflexivity|intros; cbn; ring|].
      apply (expand_const (fun _ => 1) 1). intros. rewrite Rabs_R1. lra.
    - eapply expand_ext; [| | |exact (expand_mul _ _ _ _ _ _ H IH)].
      + intros. reflexivity.
      + intros. reflexivity.
      + intros p j Hj. cbv beta. rewrite S_INR. cbn [pred]. destruct n as [|n]; [cbn; ring|]. cbn [pred]. change (v j ^ S n) with (v j * v j ^ n). ring.
  Qed.
End Expansion.

(** ** the discretised derivative *)
Section Stencil.
  Variables (coords : list string) (shape : list nat) (g : @grid RF).
  Hypothesis LS : List.length shape = List.length coords.
  Definition terms (v : list (string * nat)) : list (term RF) :=
    match variables coords v with Ok ds => tensor RF (@spacing RF g) (repeat 0%Z (List.length coords)) ds | Err _ => [] end.
  Definition sten (v : list (string * nat)) (a : list nat -> R) (js : list nat) : R := tval RF (fun d => a (wrap shape d js)) (terms v).
  Lemma terms_in v js t : in_range shape js -> In t (terms v) -> in_range shape (wrap shape (fst (snd t)) js).
  Proof.
    intros H Ht. unfold terms in Ht. destruct (variables coords v) as [ds|] eqn:E; [|destruct Ht]. apply wrap_in_range; auto.
    apply tensor_lengths in Ht. rewrite Ht, repeat_length. auto.
  Qed.
  Lemma tval_combine (G H : list Z -> R) c (l : list (term RF)) : tval RF (fun d => G d + c * H d) l = tval RF G l + c * tval RF H l.
  Proof.
    induction l as [|t l IH]; [cbn; ring|].
    change (fst t * (G (fst (snd t)) + c * H (fst (snd t))) + tval RF (fun d => G d + c * H d) l
      = (fst t * G (fst (snd t)) + tval RF G l) + c * (fst t * H (fst (snd t)) + tval RF H l)).
    rewrite IH. set (A := tval RF G l : R). set (B := tval RF H l : R). change (F RF) with R in *. ring.
  Qed.
  Lemma tval_ext (G H : list Z -> R) (l : list (term RF)) : (forall t, In t l -> G (fst (snd t)) = H (fst (snd t))) -> tval RF G l = tval RF H l.
  Proof.
    induction l as [|t l IH]; intros E; [reflexivity|].
    change (fst t * G (fst (snd t)) + tval RF G l = fst t * H (fst (snd t)) + tval RF H l).
    rewrite E by (left; auto). rewrite IH by (intros; apply E; right; auto). reflexivity.
  Qed.
  Lemma tval_bound (G : list Z -> R) m (l : list (term RF)) : 0 <= m -> (forall t, In t l -> Rabs (G (fst (snd t))) <= m) ->
    Rabs (tval RF G l) <= fold_right (fun t acc => Rabs (fst t) + acc) 0 l * m.
  Proof.
    intros Hm. induction l as [|t l IH]; intros E; [cbn; rewrite Rabs_R0; lra|].
    change (Rabs (fst t * G (fst (snd t)) + tval RF G l) <= (Rabs (fst t) + fold_right (fun t acc => Rabs (fst t) + acc) 0 l) * m).
    eapply Rle_trans; [apply Rabs_triang|]. rewrite Rabs_mult. specialize (IH (fun t' H => E t' (or_intror H))).
    assert (Rabs (fst t) * Rabs (G (fst (snd t))) <= Rabs (fst t) * m) by (apply Rmult_le_compat_l; [apply Rabs_pos|apply E; left; auto]). lra.
  Qed.
  Lemma sten_combine v (a b : list nat -> R) c js : sten v (fun i => a i + c * b i) js = sten v a js + c * sten v b js.
  Proof. exact (tval_combine (fun d => a (wrap shape d js)) (fun d => b (wrap shape d js)) c (terms v)). Qed.
  Lemma sten_ext v (a b : list nat -> R) js : in_range shape js -> (forall i, in_range shape i -> a i = b i) -> sten v a js = sten v b js.
  Proof. intros R E. apply tval_ext. intros t Ht. apply E. eapply terms_in; eauto. Qed.
  Lemma sten_bound v : exists B, 0 <= B /\ forall (a : list nat -> R) m, 0 <= m -> (forall i, in_range shape i -> Rabs (a i) <= m) ->
    forall js, in_range shape js -> Rabs (sten v a js) <= B * m.
  Proof.
    exists (fold_right (fun t acc => Rabs (fst t) + acc) 0 (terms v)). split.
    - induction (terms v) as [|t l IH]; [cbn; lra|].
      change (0 <= Rabs (fst t) + fold_right (fun t acc => Rabs (fst t) + acc) 0 l). pose proof (Rabs_pos (fst t)). lra.
    - intros a m Hm H js R. apply tval_bound; [exact Hm|]. intros t Ht. apply H. eapply terms_in; eauto.
  Qed.
  Lemma sten_zero v js : sten v (fun _ => 0) js = 0.
  Proof.
    unfold sten. induction (terms v) as [|t l IH]; [reflexivity|].
    change (fst t * 0 + tval RF (fun _ => 0) l = 0). rewrite IH. change (F RF) with R. ring.
  Qed.
End Stencil.

(** an array is bounded on the grid *)
Lemma array_bounded shape : forall a : list nat -> R, exists M, 0 <= M /\ forall js, in_range shape js -> Rabs (a js) <= M.
Proof.
  induction shape as [|n shape IH]; intros a.
  - exists (Rabs (a [])). split; [apply Rabs_pos|]. intros js H. inversion H; subst. lra.
  - assert (K : exists M, 0 <= M /\ forall j js, (j < n)%nat -> in_range shape js -> Rabs (a (j :: js)) <= M).
    { induction n as [|n (M & M0 & HM)]; [exists 0; split; [lra|intros; lia]|].
      destruct (IH (fun js => a (n :: js))) as (M' & M0' & HM'). exists (M + M'). split; [lra|]. intros j js Hj Hs.
      destruct (Nat.eq_dec j n) as [->|N]; [specialize (HM' js Hs); lra|]. specialize (HM j js ltac:(lia) Hs). lra. }
    destruct K as (M & M0 & HM). exists M. split; [exact M0|]. intros js H. inversion H; subst. apply HM; auto.
Qed.
