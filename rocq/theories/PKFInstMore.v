(** Concrete systems for PKFProps. *)
From Coq Require Import List Arith Ring ZArith QArith Bool String Permutation.
From Verif Require Import PyBase PartialOrderModel TreeModel Reynolds PKFModel PKFSpec PKFInst.
Import ListNotations.
Close Scope Q_scope.
Open Scope string_scope.
Open Scope list_scope.

Definition same {X} (l : X) : X := l.
(** Burgers: D_t u = kappa D_x^2 u - u D_x u *)
Definition burgers : list poly := [ [((-1)%Q, [AJet (FField 0) []; AJet (FField 0) ["x"]]); (1%Q, [AJet (FField 0) ["x"; "x"]; ACst 0])] ].
(** D_t u = (D_x u)^2 *)
Definition slope : list poly := [ [(1%Q, [AJet (FField 0) ["x"]; AJet (FField 0) ["x"]])] ].

(** D_t V, D_t g_xx for Burgers as printed by the notebook pkf_burgers *)
Definition burgers_variance : pequation :=
  (time_derivative (FVar 0),
   [((-2)%Q, [ACst 0; ASig 0; ASig 0; AJet (FMet 0 0 0) []]);
    ((-1 # 2)%Q, [ACst 0; AIsig 0; AIsig 0; AJet (FVar 0) ["x"]; AJet (FVar 0) ["x"]]);
    (1%Q, [ACst 0; AJet (FVar 0) ["x"; "x"]]);
    ((-2)%Q, [ASig 0; ASig 0; AJet (FMean 0) ["x"]]);
    ((-1)%Q, [AJet (FMean 0) []; AJet (FVar 0) ["x"]])]).

Definition mentions (f : fn) (p : poly) : bool :=
  existsb (fun t => existsb (fun a => match a with AJet g _ => if fn_eq_dec g f then true else false | _ => false end) (snd t)) p.
Lemma mentions_in f p : mentions f p = true -> exists c m w, In (c, m) p /\ In (AJet f w) m.
Proof.
  unfold mentions. intros H. apply existsb_exists in H. destruct H as ([c m] & H1 & H). cbn [snd] in H. apply existsb_exists in H.
  destruct H as (a & H2 & H). destruct a; try discriminate. destruct (fn_eq_dec f0 f) as [->|]; [|discriminate]. exists c, m, w. auto.
Qed.
Lemma diffusion_open : exists sys, in_diffusion same same same same same ["x"] PKFInst.two_fields [] = Ok sys
  /\ (exists q c m w, In q sys /\ In (c, m) (snd q) /\ In (AJet (FCov 0 1) w) m)
  /\ ~ In (time_derivative (FCov 0 1)) (map fst sys).
Proof.
  eexists. split; [vm_compute; reflexivity|]. split.
  - eexists. assert (H : forall (q : pequation) sys, In q sys -> mentions (FCov 0 1) (snd q) = true ->
      exists c m w, In q sys /\ In (c, m) (snd q) /\ In (AJet (FCov 0 1) w) m).
    { intros q sys H1 H2. destruct (mentions_in _ _ H2) as (c & m & w & H3 & H4). exists c, m, w. auto. }
    apply H; [right; right; right; left; reflexivity|]. vm_compute. reflexivity.
  - intros H. repeat (destruct H as [H|H]; [discriminate H|]). exact H.
Qed.
Lemma slope_unclosed : unclosed_terms same same same same same ["x"] slope [] = Ok [[(FEps 0, ["x"]); (FEps 0, ["x"])]]
  /\ forall (A : RAlg) (E : env A), statistics ["x"] 1 E -> EE (jprod E [(FEps 0, ["x"]); (FEps 0, ["x"])]) = e_fn E (FMet 0 0 0).
Proof.
  split; [vm_compute; reflexivity|]. intros A E HS. rewrite (st_metric _ _ _ HS 0 0 0) by (cbn; auto with arith).
  cbn [jprod fold_right jv fst snd dds nth]. f_equal. 
  set (a := dd "x" (e_fn E (FEps 0))). replace (cmul a c1) with a; [reflexivity|].
  rewrite (Rmul_comm (c_th A)), (Rmul_1_l (c_th A)). reflexivity.
Qed.
Lemma same_rearrangements : rearrangements same same same same same.
Proof. repeat split; intros l; apply Permutation.Permutation_refl. Qed.
