(** Which functions occur in the systems of PKFModel, outside and inside averages. *)
From Coq Require Import List Arith ZArith QArith Bool String Permutation Lia.
From Verif Require Import PyBase PyBaseFacts PartialOrderModel PartialOrderSpec PartialOrderProofs TreeModel TreeSpec TreeProofs
  PKFModel PKFSpec PKFAlg PKFAtoms PKFClosure PKFProofs TreeMore TreeProps.
Import ListNotations.
Close Scope Q_scope.
Close Scope Z_scope.
Open Scope nat_scope.
Open Scope string_scope.
Open Scope list_scope.

Definition occ (Fo Fi : fn -> Prop) (S : nat -> Prop) (a : atom) : Prop :=
  match a with
  | AJet f _ => Fo f
  | AExp _ l => forall j, In j l -> is_random (fst j) = true /\ Fi (fst j)
  | ASig i | AIsig i => S i
  | _ => True
  end.
Definition coherent (Fo : fn -> Prop) (S : nat -> Prop) : Prop := forall i, Fo (FVar i) <-> S i.
Definition detf (Fo : fn -> Prop) (f : fn) : Prop := is_random f = false /\ Fo f.
Definition mixf (Fo Fi : fn -> Prop) (f : fn) : Prop := (is_random f = false /\ Fo f) \/ (is_random f = true /\ Fi f).

Section Occ.
  Variables (Fo Fi : fn -> Prop) (S : nat -> Prop).
  Hypothesis HC : coherent Fo S.

  Lemma occ_jet f w : Fo f -> pall (occ Fo Fi S) (pjet f w).
  Proof. intros H. apply pjet_all; [exact H|]. intros i ->. cbn. apply HC, H. Qed.
  Lemma occ_fn f : Fo f -> pall (occ Fo Fi S) (pfn f).
  Proof. apply occ_jet. Qed.
  Lemma occ_datom c a : occ Fo Fi S a -> pall (occ Fo Fi S) (datom c a).
  Proof.
    destruct a; cbn [datom]; intros H.
    - apply occ_jet, H.
    - apply pall_atom. exact H.
    - apply pall_nil.
    - apply pall_nil.
    - apply pmulm_all; [intros b [<-|[]]; exact H|apply occ_jet, HC, H].
    - apply pmulm_all; [intros b [<-|[<-|[<-|[]]]]; exact H|apply occ_jet, HC, H].
  Qed.
  Lemma occ_deriv c p : pall (occ Fo Fi S) p -> pall (occ Fo Fi S) (pderiv c p).
  Proof. apply pderiv_all. exact occ_datom. Qed.
  Lemma occ_derivs w p : pall (occ Fo Fi S) p -> pall (occ Fo Fi S) (pderivs w p).
  Proof. apply pderivs_all. exact occ_datom. Qed.
End Occ.

Lemma occ_weaken (Fo Fi Fo' Fi' : fn -> Prop) (S S' : nat -> Prop) p : (forall f, Fo f -> Fo' f) -> (forall f, Fi f -> Fi' f) ->
  (forall i, S i -> S' i) -> pall (occ Fo Fi S) p -> pall (occ Fo' Fi' S') p.
Proof.
  intros H1 H2 H3. apply pall_weaken. intros [f w|w l|k| |i|i]; cbn; auto.
  intros H j Hj. destruct (H j Hj). auto.
Qed.

(** averages leave no random function outside *)
Lemma occ_expect (Fo Fi : fn -> Prop) (S : nat -> Prop) p : (forall f, is_random f = true -> Fo f -> Fi f) ->
  pall (occ Fo Fi S) p -> pall (occ (detf Fo) Fi S) (expect p).
Proof.
  intros HF Hp. apply (expect_all (occ Fo Fi S)); [exact Hp|..].
  - intros [f w|w l|k| |i|i] H Hr; cbn in *; auto. split; [exact (Hr f w eq_refl)|exact H].
  - intros w l Hl j Hj. destruct (Hl j Hj) as (Hr & w' & Hw). split; [exact Hr|]. apply HF; [exact Hr|exact Hw].
Qed.

(** substitutions *)
Lemma occ_subst (Fo Fi Fo' Fi' : fn -> Prop) (S S' : nat -> Prop) g p : coherent Fo' S' -> (forall i, S i -> S' i) ->
  (forall f w, Fo f -> pall (occ Fo' Fi' S') (g f w)) ->
  (forall f w, is_random f = true -> Fi f -> pall (occ (mixf Fo' Fi') Fi' S') (g f w)) ->
  pall (occ Fo Fi S) p -> pall (occ Fo' Fi' S') (psubst g p).
Proof.
  intros HC HS Ho Hi Hp. unfold psubst. apply (replace_all (occ Fo Fi S)); [exact Hp|].
  intros [f w|w l|k| |i|i] H; cbn [asubst] in *.
  - apply Ho, H.
  - apply (occ_derivs _ _ _ HC). apply (occ_weaken (detf (mixf Fo' Fi')) Fi' Fo' Fi' S' S'); auto.
    { intros f [H1 [[_ H2]|[H2 _]]]; [exact H2|congruence]. }
    apply occ_expect.
    { intros f Hr [[H1 _]|[_ H2]]; [congruence|exact H2]. }
    apply pprod_all. intros q Hq. apply in_map_iff in Hq. destruct Hq as (j & <- & Hj). destruct (H j Hj). apply Hi; assumption.
  - apply patom_all. exact I.
  - apply patom_all. exact I.
  - apply patom_all. apply HS, H.
  - apply patom_all. apply HS, H.
Qed.
Lemma coherent_mix Fo Fi S : coherent Fo S -> coherent (mixf Fo Fi) S.
Proof. intros H i. rewrite <- (H i). unfold mixf. cbn. split; [intros [[_ ?]|[? _]]; [assumption|discriminate]|auto]. Qed.
Lemma coherent_det Fo S : coherent Fo S -> coherent (detf Fo) S.
Proof. intros H i. rewrite <- (H i). unfold detf. cbn. tauto. Qed.

(** one function is replaced; it does not occur any more if the value does not mention it *)
Lemma occ_sub_fn (Fo Fi Fo' Fi' : fn -> Prop) (S : nat -> Prop) f v p : coherent Fo' S ->
  (forall f', Fo f' -> f' <> f -> Fo' f') -> (forall f', is_random f' = true -> Fi f' -> f' <> f -> Fi' f') ->
  (Fo f -> pall (occ Fo' Fi' S) v) -> (is_random f = true -> Fi f -> pall (occ (mixf Fo' Fi') Fi' S) v) ->
  pall (occ Fo Fi S) p -> pall (occ Fo' Fi' S) (sub_fn f v p).
Proof.
  intros HC H1 H2 H3 H4. apply occ_subst; auto.
  - intros f' w Hf. destruct (fn_eq_dec f' f) as [->|Hne]; [apply (occ_derivs _ _ _ HC); auto|apply (occ_jet _ _ _ HC); auto].
  - intros f' w Hr Hf. destruct (fn_eq_dec f' f) as [->|Hne].
    + apply (occ_derivs _ _ _ (coherent_mix _ _ _ HC)). auto.
    + apply (occ_jet _ _ _ (coherent_mix _ _ _ HC)). right. auto.
Qed.
Lemma occ_sub_trend (Fo Fi : fn -> Prop) (S : nat -> Prop) f v p : coherent Fo S ->
  (Fo f -> pall (occ Fo Fi S) v) -> (is_random f = true -> Fi f -> pall (occ (mixf Fo Fi) Fi S) v) ->
  pall (occ Fo Fi S) p -> pall (occ Fo Fi S) (sub_trend f v p).
Proof.
  intros HC H3 H4. apply occ_subst; auto.
  - intros f' w Hf. destruct (fn_eq_dec f' f) as [->|Hne]; [|apply (occ_jet _ _ _ HC); auto].
    destruct (wremove "t" w); [apply (occ_derivs _ _ _ HC); auto|apply (occ_jet _ _ _ HC); auto].
  - intros f' w Hr Hf. destruct (fn_eq_dec f' f) as [->|Hne]; [destruct (wremove "t" w)|].
    + apply (occ_derivs _ _ _ (coherent_mix _ _ _ HC)). auto.
    + apply (occ_jet _ _ _ (coherent_mix _ _ _ HC)). right. auto.
    + apply (occ_jet _ _ _ (coherent_mix _ _ _ HC)). right. auto.
Qed.
Lemma occ_sub_trends (Fo Fi : fn -> Prop) (S : nat -> Prop) d : forall p, coherent Fo S ->
  (forall f v, In (f, v) d -> (Fo f -> pall (occ Fo Fi S) v) /\ (is_random f = true -> Fi f -> pall (occ (mixf Fo Fi) Fi S) v)) ->
  pall (occ Fo Fi S) p -> pall (occ Fo Fi S) (sub_trends d p).
Proof.
  unfold sub_trends. induction d as [|[f v] d IH]; intros p HC Hd Hp; cbn [fold_left]; [exact Hp|].
  apply IH; [exact HC|intros; apply Hd; right; assumption|].
  destruct (Hd f v (or_introl eq_refl)). apply occ_sub_trend; assumption.
Qed.
Lemma occ_sub_fns (Fo Fi : fn -> Prop) (S : nat -> Prop) d : forall p, coherent Fo S ->
  (forall f v, In (f, v) d -> (Fo f -> pall (occ Fo Fi S) v) /\ (is_random f = true -> Fi f -> pall (occ (mixf Fo Fi) Fi S) v)) ->
  pall (occ Fo Fi S) p -> pall (occ Fo Fi S) (sub_fns d p).
Proof.
  unfold sub_fns. induction d as [|[f v] d IH]; intros p HC Hd Hp; cbn [fold_left]; [exact Hp|].
  apply IH; [exact HC|intros; apply Hd; right; assumption|].
  destruct (Hd f v (or_introl eq_refl)). apply (occ_sub_fn Fo Fi); auto.
Qed.
(** all keys disappear *)
Lemma occ_sub_fns_gone (Fo Fi : fn -> Prop) (S : nat -> Prop) d : forall p,
  (forall i, Fo (FVar i) <-> S i) -> (forall i, ~ In (FVar i) (map fst d)) ->
  (forall f v, In (f, v) d -> (Fo f -> pall (occ (fun f' => Fo f' /\ ~ In f' (map fst d)) (fun f' => Fi f' /\ ~ In f' (map fst d)) S) v)
     /\ (is_random f = true -> pall (occ (mixf (fun f' => Fo f' /\ ~ In f' (map fst d)) (fun f' => Fi f' /\ ~ In f' (map fst d)))
                                        (fun f' => Fi f' /\ ~ In f' (map fst d)) S) v)) ->
  pall (occ Fo Fi S) p ->
  pall (occ (fun f' => Fo f' /\ ~ In f' (map fst d)) (fun f' => Fi f' /\ ~ In f' (map fst d)) S) (sub_fns d p).
Proof.
  intros p HC HV Hv Hp. unfold sub_fns.
  assert (G : forall d1 d2 p, d = d1 ++ d2 ->
    pall (occ (fun f' => Fo f' /\ ~ In f' (map fst d1)) (fun f' => Fi f' /\ ~ In f' (map fst d1)) S) p ->
    pall (occ (fun f' => Fo f' /\ ~ In f' (map fst d)) (fun f' => Fi f' /\ ~ In f' (map fst d)) S)
      (fold_left (fun p kv => sub_fn (fst kv) (snd kv) p) d2 p)).
  { intros d1 d2. revert d1. induction d2 as [|[f v] d2 IH]; intros d1 q Hd Hq; cbn [fold_left].
    - rewrite app_nil_r in Hd. rewrite Hd. exact Hq.
    - apply (IH (d1 ++ [(f, v)])); [rewrite <- app_assoc; exact Hd|]. cbn [fst snd].
      assert (Hin : In (f, v) d) by (rewrite Hd; apply in_app_iff; right; left; reflexivity).
      assert (Hsub : forall f', ~ In f' (map fst d) -> ~ In f' (map fst (d1 ++ [(f, v)]))).
      { intros f' Hn Hc. apply Hn. rewrite Hd, map_app. rewrite map_app in Hc. apply in_app_iff in Hc. apply in_app_iff.
        destruct Hc as [Hc|[<-|[]]]; [left; exact Hc|right; left; reflexivity]. }
      assert (Hnew : forall f', ~ In f' (map fst d1) -> f' <> f -> ~ In f' (map fst (d1 ++ [(f, v)]))).
      { intros f' Hn Hne Hc. rewrite map_app in Hc. apply in_app_iff in Hc. destruct Hc as [Hc|[Hc|[]]]; [exact (Hn Hc)|cbn in Hc; congruence]. }
      apply (occ_sub_fn (fun f' => Fo f' /\ ~ In f' (map fst d1)) (fun f' => Fi f' /\ ~ In f' (map fst d1))).
      + intros i. rewrite <- HC. split; [intros [H _]; exact H|]. intros H. split; [exact H|apply Hsub, HV].
      + intros f' [H1 H2] H3. auto.
      + intros f' _ [H1 H2] H3. auto.
      + intros [Hf _]. eapply occ_weaken; [| | |exact (proj1 (Hv f v Hin) Hf)]; [intros f' [H1 H2]; auto|intros f' [H1 H2]; auto|auto].
      + intros Hr _. eapply occ_weaken; [| | |exact (proj2 (Hv f v Hin) Hr)]; [|intros f' [H1 H2]; auto|auto].
        intros f' [[H1 [H2 H3]]|[H1 [H2 H3]]]; [left|right]; auto.
      + exact Hq. }
  apply (G [] d p eq_refl). eapply occ_weaken; [| | |exact Hp]; [intros f' H; split; [exact H|intros []]|intros f' H; split; [exact H|intros []]|auto].
Qed.

(** replacement of averages *)
Lemma occ_sub_exps (Fo Fi : fn -> Prop) (S : nat -> Prop) d : forall p, coherent Fo S ->
  (forall l v, In (l, v) d -> pall (occ Fo Fi S) v) -> pall (occ Fo Fi S) p -> pall (occ Fo Fi S) (sub_exps d p).
Proof.
  unfold sub_exps. induction d as [|[l v] d IH]; intros p HC Hd Hp; cbn [fold_left]; [exact Hp|].
  apply IH; [exact HC|intros l' v' H; apply (Hd l' v'); right; exact H|]. cbn [fst snd]. unfold sub_exp.
  apply (replace_all (occ Fo Fi S)); [exact Hp|]. intros a Ha. destruct a; try (apply patom_all; exact Ha).
  destruct (jets_eq_dec l0 l); [|apply patom_all; exact Ha]. apply (occ_derivs _ _ _ HC), (Hd l v). left; reflexivity.
Qed.
