(** Cases for the statistics of ensembles: one step of the explicit Euler scheme. *)
From Coq Require Import List Arith Reals Lra Lia FunctionalExtensionality Permutation.
From Verif Require Import PyBase PyBaseFacts Scalars FieldFacts FDReal ForecastModel ForecastSpec ForecastProofs ForecastMore EnsembleProofs
  SchemesModel SchemesSpec SchemesProofs ModelProofs LinearMore TangentSpec TangentProofs TangentCases EnsStatSpec EnsStatProofs.
Import ListNotations.
Open Scope R_scope.

Lemma euler_final {I} (L : R -> (I -> R) -> I -> R) u : @final RF Req_EM_T I SEuler L [0; 1] u (fun i => u i + (1 - 0) * L 0 u i).
Proof.
  exists 1. unfold forecast. cbn -[Req_EM_T lmem].
  assert (M0 : lmem Req_EM_T 0 [1] = false) by (destruct (lmem Req_EM_T 0 [1]) eqn:E; [apply lmem_true in E; cbn in E; destruct E as [E|[]]; lra|reflexivity]).
  assert (M1 : lmem Req_EM_T 1 [1] = true) by (apply lmem_true; cbn; auto).
  rewrite M0. cbn -[Req_EM_T lmem]. rewrite M1. cbn -[Req_EM_T]. eexists. split; [reflexivity|]. split; [reflexivity|].
  cbn -[Req_EM_T]. destruct (Req_EM_T 1 1); [reflexivity|lra].
Qed.
Lemma final_det {I} s (L : R -> (I -> R) -> I -> R) w u v v' : @final RF Req_EM_T I s L w u v -> @final RF Req_EM_T I s L w u v' -> v = v'.
Proof.
  intros (t & d & E1 & E2 & E3) (t' & d' & F1 & F2 & F3). rewrite E1 in F1. injection F1 as <-. rewrite E2 in F2. injection F2 as <-. rewrite E3 in F3.
  injection F3 as <-. reflexivity.
Qed.
Definition shiftR (_ : R) (u : bool -> R) (b : bool) : R := if b then u false else 0.
Lemma shiftR_linear t : @linear RF bool bool (shiftR t).
Proof. split; intros; apply functional_extensionality; intros []; unfold shiftR, vadd, vscale; cbn; ring. Qed.
Definition bix (k : nat) : bool := Nat.eqb k 0.
