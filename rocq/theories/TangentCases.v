(** A dynamics that is not linear, and one step of a forecast. *)
From Coq Require Import List Reals Lra.
From Verif Require Import PyBase PyBaseFacts Scalars FDReal ForecastModel SchemesModel SchemesSpec TangentSpec.
Import ListNotations.
Open Scope R_scope.

(** the dynamics du/dt = u^2 at one point *)
Lemma square_tangent : tangent (fun _ : unit => True) (fun _ u i => u i ^ 2) (fun _ u p i => 2 * u i * p i).
Proof.
  split.
  - intros t u. exists 1, 1. split; [lra|]. intros p m _ Hp i _. specialize (Hp i I).
    replace ((u i + p i) ^ 2 - (u i ^ 2 + 2 * u i * p i)) with (p i * p i) by ring.
    rewrite Rabs_mult, Rmult_1_l. pose proof (Rabs_pos (p i)). cbn [pow]. rewrite Rmult_1_r. apply Rmult_le_compat; lra.
  - intros. ring.
  - intros t u. exists (2 * Rabs (u tt)). intros p m Hp [] _. specialize (Hp tt I).
    rewrite !Rabs_mult, (Rabs_pos_eq 2) by lra. apply Rmult_le_compat_l; [pose proof (Rabs_pos (u tt)); lra|exact Hp].
Qed.


Lemma one_step {S TR} (scheme : TR -> R -> S -> R -> res S) tr u v : scheme tr 0 u (1 - 0) = Ok v ->
  exists d, forecast Req_EM_T Rminus scheme tr [0; 1] u SNone = Ok d /\ dget Req_EM_T 1 d = Some v.
Proof.
  intros E. unfold forecast. cbn -[Req_EM_T lmem]. 
  assert (M0 : lmem Req_EM_T 0 [0; 1] = true) by (apply lmem_true; cbn; auto).
  assert (M1 : lmem Req_EM_T 1 [0; 1] = true) by (apply lmem_true; cbn; auto).
  rewrite M0, M1. rewrite E. cbn -[Req_EM_T]. eexists. split; [reflexivity|].
  destruct (Req_EM_T 1 0); [lra|]. cbn -[Req_EM_T]. destruct (Req_EM_T 1 0); [lra|]. destruct (Req_EM_T 1 1); [reflexivity|lra].
Qed.
