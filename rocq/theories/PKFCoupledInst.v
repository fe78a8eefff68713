(** The chemical transport model and the oscillator of the notebooks (C121). *)
From Coq Require Import List Arith Ring ZArith QArith Qcanon Bool String Permutation Lia.
From Verif Require Import PyBase PartialOrderModel TreeModel Reynolds PKFModel PKFSpec PKFAlg PKFTimeSpec PKFOrderSpec PKFInst PKFInstMore PKFDegreeInst
  PKFLinearSpec PKFCoupledSpec PKFCoupled PKFCoupledMain.
Import ListNotations.
Close Scope Q_scope.
Close Scope Qc_scope.
Close Scope Z_scope.
Open Scope nat_scope.
Open Scope string_scope.
Open Scope list_scope.

(** D_t A = - u D_x A + B, D_t B = - u D_x B - A *)
Definition exchange (i j : nat) : poly := match i, j with 0, 1 => [(1%Q, [])] | 1, 0 => [((-1)%Q, [])] | _, _ => [] end.
Definition chemical : list poly := coupled_system ["x"] (fun _ => ["t"; "x"]) 2 exchange (fun _ => []).
Lemma exchange_given i j : given_poly (exchange i j).
Proof. destruct i as [|[|i]], j as [|[|j]]; intros c m a H Ha; cbn in H; try tauto; destruct H as [H|[]]; injection H as <- <-; destruct Ha. Qed.
Lemma nothing_given (i : nat) : given_poly [].
Proof. intros c m a []. Qed.
Lemma chemical_metric : exists m, in_metric same same same same same ["x"] chemical [] = Ok m
  /\ (forall (A : RAlg) (E : env A), statistics ["x"] 2 E -> coupled ["x"] (fun _ => ["t"; "x"]) 2 exchange (fun _ => []) E m).
Proof.
  destruct (coupled_values same same same same same ["x"] same_rearrangements) with (deps := fun _ : nat => ["t"; "x"]) (n := 2) (react := exchange) (source := fun _ : nat => @nil (Q * mono)) as (m & Hm & _ & V);
    [repeat constructor; intros []|discriminate|intros [H|[]]; discriminate|exact exchange_given|intros i; exact (nothing_given i)|].
  exists m. auto.
Qed.
Lemma chemical_system : exists m a b va vb c ga gb, in_metric same same same same same ["x"] chemical [] = Ok m
  /\ m = [a; b; (time_derivative (FVar 0), va); (time_derivative (FVar 1), vb); (time_derivative (FCov 0 1), c); ga; gb]
  /\ va = [((-1)%Q, [AJet (FVar 0) ["x"]; AJet (FExt 0 ["t"; "x"]) []]); (2%Q, [AJet (FCov 0 1) []])]
  /\ vb = [((-1)%Q, [AJet (FVar 1) ["x"]; AJet (FExt 0 ["t"; "x"]) []]); ((-2)%Q, [AJet (FCov 0 1) []])]
  /\ exp_atoms c = [[(FEps 0, []); (FEps 1, ["x"])]; [(FEps 0, ["x"]); (FEps 1, [])]]
  /\ exp_atoms (snd ga) = [[(FEps 0, ["x"]); (FEps 1, ["x"])]; [(FEps 0, ["x"]); (FEps 1, [])]].
Proof. do 8 eexists. repeat apply conj; vm_compute; reflexivity. Qed.

(** the covariance is transported, with the source V_B - V_A *)
Definition cov_closed : poly :=
  [((-1)%Q, [AJet (FExt 0 ["t"; "x"]) []; AJet (FCov 0 1) ["x"]]); ((-1)%Q, [AJet (FVar 0) []]); (1%Q, [AJet (FVar 1) []])].
Section Value.
  Context {A : RAlg} (E : env A).
  Add Ring A_ringI : (c_th A).
  Lemma cov_value_is : coupled_rate ["x"] (fun _ => ["t"; "x"]) 2 exchange (fun _ => []) E (FCov 0 1) = pv E cov_closed.
  Proof.
    cbv [coupled_rate along over among PKFCoupledSpec.r cov exchange nth seq map List.length asum fold_right Nat.eqb Nat.ltb Nat.leb wind pv mv av fst snd cov_closed dds].
    rewrite qq_1, qq_m1. ring.
  Qed.
  Lemma exchange_values : (forall i j, i < 2 -> j < 2 -> r exchange E i j = (- r exchange E j i)%ra) /\ r exchange E 0 1 = 1%ra.
  Proof.
    assert (O : r exchange E 0 1 = 1%ra) by (unfold r; cbn [exchange pv fold_right fst snd mv]; rewrite qq_1; ring).
    assert (P : r exchange E 1 0 = (- (1))%ra) by (unfold r; cbn [exchange pv fold_right fst snd mv]; rewrite qq_m1; ring).
    assert (Z0 : r exchange E 0 0 = 0%ra) by reflexivity. assert (Z1 : r exchange E 1 1 = 0%ra) by reflexivity.
    split; [|exact O]. intros i j Hi Hj. destruct i as [|[|i]], j as [|[|j]]; try lia; rewrite ?O, ?P, ?Z0, ?Z1; ring.
  Qed.
End Value.
Lemma closure_refuted : exists m c l, in_metric same same same same same ["x"] chemical [] = Ok m
  /\ In (time_derivative (FCov 0 1), c) m /\ averaged_in l c
  /\ (forall l', ~ averaged_in l' cov_closed)
  /\ forall (A : RAlg) (E : env A), statistics ["x"] 2 E -> pv E c = pv E cov_closed.
Proof.
  destruct chemical_metric as (m & Hm & V). destruct chemical_system as (m' & a & b & va & vb & c & ga & gb & Hm' & Em & _ & _ & Ec & _).
  rewrite Hm in Hm'. injection Hm' as <-. exists m, c, [(FEps 0, []); (FEps 1, ["x"])].
  assert (I : In (time_derivative (FCov 0 1), c) m) by (rewrite Em; do 4 right; left; reflexivity).
  split; [exact Hm|]. split; [exact I|]. split; [|split].
  - assert (X : In [(FEps 0, []); (FEps 1, ["x"])] (exp_atoms c)) by (rewrite Ec; left; reflexivity).
    apply nodup_In, in_flat_map in X. destruct X as ([q mm] & H1 & X). apply in_flat_map in X. destruct X as (at' & H2 & X). destruct at'; try destruct X as [X|[]]; try destruct X.
    exists q, mm, w. split; [exact H1|exact H2].
  - intros l' (q & mm & w & H & Ha). cbn in H. repeat (destruct H as [H|H]; [injection H as <- <-; cbn in Ha; intuition discriminate|]). exact H.
  - intros A E HS. destruct (V A E HS _ _ I) as (f & Ef & ->). injection Ef as <-. apply cov_value_is.
Qed.
(** without transport, the harmonic oscillator *)
Definition oscillator : list poly := [[(1%Q, [AJet (FField 1) []])]; [((-1)%Q, [AJet (FField 0) []])]].
