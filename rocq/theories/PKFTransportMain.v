(** The systems of transport (C112). *)
From Coq Require Import List Arith Ring ZArith QArith Qcanon Bool String Permutation Lia.
From Verif Require Import PyBase PyBaseFacts PartialOrderModel TreeModel Reynolds PKFModel PKFSpec PKFAlg PKFTensor PKFTimeSpec PKFOrderSpec PKFRateSpec PKFRateMain PKFMore PKFShape
  PKFReduced PKFClosure PKFInst PKFLinearSpec PKFLinear PKFTransport.
Import ListNotations.
Close Scope Q_scope.
Close Scope Qc_scope.
Close Scope Z_scope.
Open Scope nat_scope.
Open Scope string_scope.
Open Scope list_scope.

Section Main.
  Variables (enum : list mi -> list mi) (enumD : tdict -> tdict) (enumC : edict -> edict)
    (enumF : list (fn * poly) -> list (fn * poly)) (enumU : list fn -> list fn) (coords : list string).
  Hypothesis HR : rearrangements enum enumD enumC enumF enumU.
  Hypothesis Hcoords : NoDup coords.
  Hypothesis Hne : coords <> [].
  Hypothesis Ht : ~ In "t" coords.

  Section Eqs.
    Variable eqs : list poly.
    Hypothesis HU : user_system eqs.
    Hypothesis HS : Forall (spatial_poly coords) eqs.
    Hypothesis HL : Forall linear_poly eqs.
    Lemma linear_mean : exists e, expectation_system enum enumC enumF coords eqs = Ok e /\ no_average e.
    Proof.
      assert (HK : exists k, Forall (order_at_most k) eqs).
      { clear. induction eqs as [|p l [k IH]]; [exists 0; constructor|].
        set (K := list_max (map (fun t => list_max (map (fun a => match a with AJet _ w => List.length w | _ => 0 end) (snd t))) p)).
        exists (Nat.max k K). constructor.
        - intros c m i w Hm Ha. assert (H : List.length w <= K); [|lia].
          assert (H1 : List.length w <= list_max (map (fun a => match a with AJet _ w => List.length w | _ => 0 end) m)).
          { pose proof (proj1 (list_max_le (map (fun a => match a with AJet _ w => List.length w | _ => 0 end) m) _) (le_n _)) as F. rewrite Forall_forall in F.
            apply F, in_map_iff. eexists. split; [|exact Ha]. reflexivity. }
          eapply Nat.le_trans; [exact H1|]. pose proof (proj1 (list_max_le (map (fun t => list_max (map (fun a => match a with AJet _ w => List.length w | _ => 0 end) (snd t))) p) _) (le_n _)) as F.
          rewrite Forall_forall in F. apply F, in_map_iff. exists (c, m). auto.
        - revert IH. apply Forall_impl. intros q Hq c m i w Hm Ha. specialize (Hq c m i w Hm Ha). lia. }
      destruct HK as [k HK]. destruct HR as (R1 & R2 & R3 & R4 & R5). destruct (expectation_ok enum enumC enumF no_tensor coords eqs) as (e & He & _); auto.
      exists e. split; [exact He|]. exact (expectation_free enum enumD enumC enumF enumU coords eqs k HR Hcoords Hne Ht HU HS HK HL e He).
    Qed.
    Hypothesis HK : Forall (order_at_most 1) eqs.
    Hypothesis H1 : List.length eqs = 1.
    Lemma eqs_one : exists p, eqs = [p].
    Proof. destruct eqs as [|p [|]]; try discriminate. exists p. reflexivity. Qed.
    Lemma described_one f cov s : map fst s = map time_derivative (described_list coords eqs cov f) ->
      NoDup (described_list coords eqs cov f) -> one_field_system coords f s.
    Proof.
      intros L N. exists (described_list coords eqs cov f). split; [exact N|]. split; [exact L|]. intros h. rewrite described_in. unfold described. rewrite H1. split.
      - intros [(i & Hi & ->)|[(i & Hi & ->)|[(_ & i & j & Hij & Hj & _)|(i & a & b & Hi & Hab & Hb & ->)]]]; [left|right; left|lia|right; right].
        + f_equal. lia. + f_equal. lia. + exists a, b. split; [exact Hab|]. split; [exact Hb|]. f_equal. lia.
      - intros [->|[->|(a & b & Hab & Hb & ->)]]; [left; exists 0; auto|right; left; exists 0; auto|]. right. right. right. exists 0, a, b. auto.
    Qed.
    Lemma linear_closed :
      exists m d a, in_metric enum enumD enumC enumF enumU coords eqs [] = Ok m
        /\ in_diffusion enum enumD enumC enumF enumU coords eqs [] = Ok d
        /\ in_aspect enum enumD enumC enumF enumU coords eqs [] = Ok a
        /\ one_field_system coords FMet m /\ one_field_system coords FDif d /\ one_field_system coords FAsp a
        /\ no_average m /\ no_average d /\ no_average a
        /\ unclosed_terms enum enumD enumC enumF enumU coords eqs [] = Ok [].
    Proof.
      destruct (main_metric_rates coords eqs Hcoords Hne Ht HU HS enum enumD enumC enumF enumU HR []) as (m & Hm & Lm & _); [intros l v []|].
      destruct (main_diffusion_rates enum enumD enumC enumF enumU coords eqs HR Hcoords Hne Ht HU HS []) as (d & Hd & Ld & _); [intros l v []|].
      destruct (main_aspect_rates enum enumD enumC enumF enumU coords eqs HR Hcoords Hne Ht HU HS []) as (a & Ha & La & _); [intros l v []|].
      assert (Nm : no_average m) by exact (metric_free enum enumD enumC enumF enumU coords eqs 1 HR Hcoords Hne Ht HU HS HK HL m H1 (le_n 1) Hm).
      exists m, d, a. split; [exact Hm|]. split; [exact Hd|]. split; [exact Ha|].
      split; [apply (described_one FMet true m Lm); apply described_nodup; [intros i x y j x' y' E; injection E; auto|intros; exact I]|].
      split; [apply (described_one FDif false d Ld); apply described_nodup; [intros i x y j x' y' E; injection E; auto|intros; exact I]|].
      split; [apply (described_one FAsp true a La); apply described_nodup; [intros i x y j x' y' E; injection E; auto|intros; exact I]|].
      split; [exact Nm|].
      split; [eapply tensor_free; try exact Hd; try eassumption; auto|]. split; [eapply tensor_free; try exact Ha; try eassumption; auto|].
      unfold unclosed_terms. rewrite Hm. cbn [bind]. f_equal.
      match goal with |- nodup _ ?L = _ => assert (Z : forall l, In l L -> False); [|destruct L as [|l r]; [reflexivity|destruct (Z l (or_introl eq_refl))]] end.
      intros l Hl. apply in_flat_map in Hl. destruct Hl as (q & Hq & Hl). apply averaged_iff in Hl. exact (Nm q l Hq Hl).
    Qed.
  End Eqs.

  Lemma transport_main deps growth source : let eqs := [transport_rhs coords deps growth source] in
    exists m d a, in_metric enum enumD enumC enumF enumU coords eqs [] = Ok m
      /\ in_diffusion enum enumD enumC enumF enumU coords eqs [] = Ok d
      /\ in_aspect enum enumD enumC enumF enumU coords eqs [] = Ok a
      /\ forall (A : RAlg) (E : env A), statistics coords 1 E ->
           transports coords deps growth source E m
           /\ (tensor_is coords 1 E FDif FInvDif (1 # 2) -> transports coords deps growth source E d)
           /\ (tensor_is coords 1 E FAsp FInvAsp 1 -> transports coords deps growth source E a).
  Proof.
    intros eqs. pose proof (rhs_user coords deps growth source) as HU. pose proof (rhs_spatial coords deps growth source) as HS. fold eqs in HU, HS.
    destruct (pkf_rates enum enumD enumC enumF enumU coords eqs HR Hcoords Hne Ht HU HS) as (P1 & P2 & P3).
    destruct (main_metric_rates coords eqs Hcoords Hne Ht HU HS enum enumD enumC enumF enumU HR []) as (m & Hm & Lm & Vm); [intros l v []|].
    destruct (main_diffusion_rates enum enumD enumC enumF enumU coords eqs HR Hcoords Hne Ht HU HS []) as (d & Hd & Ld & Vd); [intros l v []|].
    destruct (main_aspect_rates enum enumD enumC enumF enumU coords eqs HR Hcoords Hne Ht HU HS []) as (a & Ha & La & Va); [intros l v []|].
    exists m, d, a. split; [exact Hm|]. split; [exact Hd|]. split; [exact Ha|]. intros A E HE.
    assert (HC : closure_holds E []) by (intros l v []).
    assert (G : forall s cov f, (forall g, In g (described_list coords eqs cov f) -> rate E coords eqs g = transport_rate coords deps growth source E g) ->
        map fst s = map time_derivative (described_list coords eqs cov f) -> moves E coords eqs s (described_list coords eqs cov f) ->
        transports coords deps growth source E s).
    { intros s cov f Hf L V. unfold moves in V. revert L. induction V as [|[l r] h s fs Hq _ IH]; intros L l' r' Hin; [destruct Hin|].
      cbn [map fst snd] in *. injection L as -> L. destruct Hin as [E'|Hin].
      - injection E' as <- <-. exists h. split; [reflexivity|]. rewrite Hq. apply Hf. left. reflexivity.
      - apply IH; auto. intros g Hg. apply Hf. right. exact Hg. }
    assert (B : forall f cov g, In g (described_list coords eqs cov f) -> (g = FField 0 \/ g = FVar 0) \/ exists x y, x <= y /\ y < List.length coords /\ g = f 0 x y).
    { intros f cov g Hg. apply described_in in Hg. unfold described in Hg. cbn [List.length eqs] in Hg.
      destruct Hg as [(i & Hi & ->)|[(i & Hi & ->)|[(_ & i & j & Hij & Hj & _)|(i & x & y & Hi & Hxy & Hy & ->)]]]; [left; left|left; right|lia|right].
      + f_equal. lia. + f_equal. lia. + exists x, y. split; [exact Hxy|]. split; [exact Hy|]. f_equal. lia. }
    assert (C : forall g, g = FField 0 \/ g = FVar 0 -> rate E coords eqs g = transport_rate coords deps growth source E g).
    { intros g [->| ->]; [exact (mean_is coords deps growth source E HE)|exact (variance_is coords deps growth source E HE)]. }
    split; [|split].
    - apply (G m true FMet); [|exact Lm|exact (Vm A E HE HC)]. intros g Hg. destruct (B _ _ _ Hg) as [H|(x & y & Hxy & Hy & ->)]; [exact (C g H)|].
      apply (metric_is coords deps growth source E HE x y); lia.
    - intros T. apply (G d false FDif); [|exact Ld|exact (Vd A E HE HC T)]. intros g Hg. destruct (B _ _ _ Hg) as [H|(x & y & Hxy & Hy & ->)]; [exact (C g H)|].
      apply (tensor_value coords deps growth source E HE FDif (1 # 2) (-2)); [reflexivity|exact (proj1 (T 0 (le_n 1)))|lia|lia].
    - intros T. apply (G a true FAsp); [|exact La|exact (Va A E HE HC T)]. intros g Hg. destruct (B _ _ _ Hg) as [H|(x & y & Hxy & Hy & ->)]; [exact (C g H)|].
      apply (tensor_value coords deps growth source E HE FAsp 1 (-1)); [reflexivity|exact (proj1 (T 0 (le_n 1)))|lia|lia].
  Qed.
End Main.
