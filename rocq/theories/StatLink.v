(** The right-hand sides of StatModel are those of the parametric dynamics in aspect. *)
From Coq Require Import List Arith Bool String QArith Qcanon Permutation Ring Lia.
From Verif Require Import PyBase Reynolds SymModel PDEModel PKFModel PKFSpec PKFLinearSpec PKFTransport PKFTransportProps AdvectModel StatModel.
Import ListNotations.
Close Scope Q_scope.
Close Scope Qc_scope.
Open Scope nat_scope.
Open Scope string_scope.
Open Scope list_scope.

Section Values.
  Context {A : RAlg} (E : env A).
  Add Ring ringA : (c_th A).
  Open Scope ra_scope.
  Lemma cq_one : @cq A (Q2Qc 1) = 1. Proof. rewrite <- (cq_1 A). f_equal. Qed.
  Lemma cq_two : @cq A (Q2Qc 2) = 1 + 1. Proof. rewrite <- (cq_1 A), <- (cq_add A). f_equal. Qed.
  Lemma cq_neg : @cq A (Q2Qc (-1)) = - (1).
  Proof.
    assert (Z : @cq A (Q2Qc 0) = 0).
    { assert (X : @cq A (Q2Qc 0) + @cq A (Q2Qc 0) = @cq A (Q2Qc 0)) by (rewrite <- (cq_add A); f_equal).
      replace (@cq A (Q2Qc 0)) with (@cq A (Q2Qc 0) + @cq A (Q2Qc 0) - @cq A (Q2Qc 0)) by ring. rewrite X at 1. ring. }
    assert (X : @cq A (Q2Qc (-1)) + 1 = 0). { rewrite <- (cq_1 A), <- (cq_add A), <- Z. f_equal. }
    replace (@cq A (Q2Qc (-1))) with (@cq A (Q2Qc (-1)) + 1 - 1) by ring. rewrite X. ring.
  Qed.
  Lemma rate_is_transport c q : In q (statistics_of c) ->
    pv E (map (term_poly c) (rate_terms c q)) = transport_rate (axes c) (fun _ => axes c) None None E (qty_fn c q).
  Proof.
    intros H. destruct c; cbn in H; repeat (destruct H as [<-|H]; [|]); try contradiction;
    cbn -[Q2Qc cq dd]; rewrite ?cq_one, ?cq_two, ?cq_neg; unfold along, over, PKFLinearSpec.shear, PKFLinearSpec.wind, tensor_matrix, asum, growth_rate, source_rate; cbn -[dd]; ring.
  Qed.
End Values.
Theorem statistics_equations c enum enumD enumC enumF enumU : rearrangements enum enumD enumC enumF enumU ->
  exists a fs, in_aspect enum enumD enumC enumF enumU (axes c) [transport_rhs (axes c) (fun _ => axes c) None None] [] = Ok a
    /\ map fst a = map time_derivative fs /\ Permutation fs (map (qty_fn c) (statistics_of c))
    /\ forall (A : RAlg) (E : env A), PKFSpec.statistics (axes c) 1 E -> tensor_is (axes c) 1 E FAsp FInvAsp 1 ->
         forall q r, In q (statistics_of c) -> In (time_derivative (qty_fn c q), r) a -> pv E r = pv E (map (term_poly c) (rate_terms c q)).
Proof.
  intros RE.
  assert (ND : NoDup (axes c)) by (destruct c; repeat constructor; cbn; intuition discriminate).
  assert (NN : axes c <> []) by (destruct c; discriminate).
  assert (NT : ~ In "t" (axes c)) by (destruct c; cbn; intuition discriminate).
  destruct (C112_transport enum enumD enumC enumF enumU (axes c) RE ND NN NT (fun _ => axes c) None None) as (m & d & a & _ & _ & Ea & Tr).
  destruct (C112_linear_closed enum enumD enumC enumF enumU (axes c) RE ND NN NT [transport_rhs (axes c) (fun _ => axes c) None None])
    as (m' & d' & a' & _ & _ & Ea' & _ & _ & (fs & Nf & Mf & If) & _); [apply rhs_user|apply rhs_spatial|apply rhs_linear|apply rhs_order|reflexivity|].
  assert (a' = a) by congruence. subst a'. exists a, fs. split; [exact Ea|]. split; [exact Mf|]. split.
  - apply NoDup_Permutation; [exact Nf|destruct c; repeat constructor; cbn; intuition discriminate|]. intros g. rewrite If. clear. destruct c; cbn; split.
    + intros [->|[->|(x & y & H1 & H2 & ->)]]; auto. destruct x as [|[|x]], y as [|[|y]]; try lia; auto 10.
    + intros [<-|[<-|H]]; auto. right. right. intuition subst; eexists _, _; repeat split; auto with arith.
    + intros [->|[->|(x & y & H1 & H2 & ->)]]; auto. destruct x as [|[|[|x]]], y as [|[|[|y]]]; try lia; auto 12.
    + intros [<-|[<-|H]]; auto. right. right. intuition subst; eexists _, _; repeat split; auto with arith.
  - intros A E S T q r Hq Hr. destruct (Tr A E S) as (_ & _ & H). destruct (H T _ _ Hr) as (f & Ef & ->). injection Ef as Ef. rewrite <- Ef. symmetry. apply rate_is_transport, Hq.
Qed.
