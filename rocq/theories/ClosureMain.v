From Coq Require Import List Arith ZArith Bool String Permutation Lia.
From Verif Require Import PyBase PyBaseFacts PartialOrderModel PartialOrderSpec PartialOrderProofs NameModel NameProofs ClosureModel ClosureSpec ClosureProofs ClosureHist.
Import ListNotations.
Open Scope list_scope.
Open Scope Z_scope.

Lemma sum_twice n i : forall k, fold_right Z.add 0 (map (fun j => if Nat.eqb j i then 2 else 0) (seq k n)) = if (k <=? i)%nat && (i <? k + n)%nat then 2 else 0.
Proof.
  induction n as [|n IH]; intros k; cbn [seq map fold_right].
  - destruct (Nat.leb_spec k i), (Nat.ltb_spec i (k + 0)); cbn; reflexivity || lia.
  - rewrite IH. destruct (Nat.eqb_spec k i), (Nat.leb_spec (S k) i), (Nat.ltb_spec i (S k + n)), (Nat.leb_spec k i), (Nat.ltb_spec i (k + S n)); cbn [andb]; lia.
Qed.
Lemma twice_index n i : (i < n)%nat -> multi_index n 2 (twice n i).
Proof.
  intros H. unfold twice. split; [now rewrite map_length, seq_length|]. split.
  - intros z Hz. apply in_map_iff in Hz. destruct Hz as (j & <- & _). destruct (Nat.eqb j i); lia.
  - rewrite sum_twice. destruct (Nat.leb_spec 0 i), (Nat.ltb_spec i (0 + n)); cbn [andb]; reflexivity || lia.
Qed.
Lemma twice_nth n i j : (j < n)%nat -> nth j (twice n i) 0 = if Nat.eqb j i then 2 else 0.
Proof.
  intros H. unfold twice. rewrite nth_indep with (d' := (fun j => if Nat.eqb j i then 2 else 0) 0%nat) by (rewrite map_length, seq_length; exact H).
  rewrite map_nth with (f := fun j => if Nat.eqb j i then 2 else 0). rewrite seq_nth by exact H. reflexivity.
Qed.
Lemma sum_ge a z : (forall z, In z a -> 0 <= z) -> In z a -> z <= fold_right Z.add 0 a.
Proof.
  induction a as [|x a IH]; intros P I; [destruct I|]. assert (Pa : forall z, In z a -> 0 <= z) by (intros; apply P; now right).
  pose proof (degree_nonneg a Pa). pose proof (P x (or_introl eq_refl)). cbn [fold_right]. destruct I as [->|I]; [lia|]. specialize (IH Pa I). lia.
Qed.
Lemma nth_entry n p a i : multi_index n p a -> 0 <= nth i a 0 <= p.
Proof.
  intros (_ & P & <-). destruct (le_lt_dec (List.length a) i) as [L|L].
  - rewrite nth_overflow by exact L. pose proof (degree_nonneg a P). lia.
  - pose proof (nth_In a 0 L) as I. split; [apply P; exact I|apply sum_ge; assumption].
Qed.

Section Main.
  Variable enum : list (list Z) -> list (list Z).
  Hypothesis Henum : forall l, Permutation (enum l) l.
  Variables (E : Type) (ezero : E) (mulZ : Z -> E -> E) (erase : E -> E) (solve : list (func * func * E) -> E -> E) (f : func) (coef : list Z -> E).
  Notation n := (List.length (spatial_coordinates f)).
  Notation closure := (closure enum E ezero mulZ f coef).
  Notation run := (run enum E ezero mulZ erase solve f coef).
  Notation in_metric := (in_metric_by_order enum E ezero mulZ erase solve f coef).

  Lemma init_coords s : init E f = Ok s -> coords f <> [].
  Proof. unfold init. destruct (coords f); [discriminate|congruence]. Qed.
  Lemma init_error : init E f = Err ValueError <-> spatial_coordinates f = [].
  Proof. unfold init, coords. destruct (spatial_coordinates f); split; congruence. Qed.

  Lemma main_history s h k : init E f = Ok s -> Forall no_metric h ->
    exists d, fst (closure k (run h s)) = Ok d /\ has_terms mulZ n coef (filled (h ++ [CClosure k])) d.
  Proof. intros Hi Hh. exact (history_closure enum Henum E ezero mulZ erase solve f coef (init_coords s Hi) h k s Hi Hh). Qed.
  Lemma main_fresh s k : init E f = Ok s -> 0 <= k -> exists d, fst (closure k s) = Ok d /\ has_terms mulZ n coef (k + 1) d.
  Proof.
    intros Hi Hk. destruct (main_history s [] k Hi (Forall_nil _)) as (d & A & B). exists d. split; [exact A|].
    unfold filled in B. cbn [app filled_from needs] in B. destruct (Z.ltb_spec 0 (k + 1)); [exact B|lia].
  Qed.
  Lemma main_taylor s k t : init E f = Ok s -> k < t -> 0 < t -> fst (closure k (run [CTaylor t] s)) = Ok [].
  Proof.
    intros Hi Hk Ht. destruct (main_history s [CTaylor t] k Hi) as (d & A & _ & B); [repeat constructor|]. rewrite A. f_equal.
    unfold filled in B. cbn [app filled_from needs] in B. destruct (Z.ltb_spec (Z.max 0 t) (k + 1)); [lia|].
    destruct d as [|[a v] d]; [reflexivity|]. exfalso. destruct (proj1 (B a v) (or_introl eq_refl)) as (p & Hp & _). lia.
  Qed.

  Lemma only_closures h : Forall (fun x => exists k, x = CClosure k) h -> filled h = seen h.
  Proof.
    unfold filled, seen. generalize 0 as m. induction h as [|x h IH]; intros m H; [reflexivity|]. inversion H as [|? ? (k & ->) H']; subst.
    cbn [filled_from fold_left needs]. rewrite <- IH by exact H'. f_equal. destruct (Z.ltb_spec m (k + 1)); lia.
  Qed.
  Lemma main_complete s h k : init E f = Ok s -> Forall (fun x => exists k, x = CClosure k) h ->
    exists d, fst (closure k (run h s)) = Ok d /\ forall alpha p, multi_index n p alpha -> p <= k -> In (alpha, mulZ (factorial p) (coef alpha)) d.
  Proof.
    intros Hi Hh. destruct (main_history s h k Hi) as (d & A & _ & B).
    { eapply Forall_impl; [|exact Hh]. intros x (j & ->). exact I. }
    exists d. split; [exact A|]. intros alpha p Hp Hk. apply B. exists p. split; [|auto]. rewrite only_closures.
    - unfold seen. rewrite fold_left_app. cbn [fold_left needs]. destruct Hp as (_ & P & <-). pose proof (degree_nonneg alpha P). lia.
    - apply Forall_app. split; [exact Hh|]. repeat constructor. eauto.
  Qed.

  Lemma reach s h k : init E f = Ok s -> Forall no_metric h -> exists m, stored enum E mulZ f coef m (run h s) /\ Z.of_nat (out E k (run h s) m) = filled (h ++ [CClosure k]).
  Proof.
    intros Hi Hh. destruct (init_ok enum E mulZ f coef (init_coords s Hi)) as (s' & Q & S & O). rewrite Hi in Q. injection Q as <-.
    destruct (history_gen enum Henum E ezero mulZ erase solve f coef (init_coords s Hi) h Hh s 0 S) as (m & A & B & C). exists m. split; [exact A|].
    unfold out. rewrite filled_last, C, O. fold (seen h).
    destruct (Z.ltb_spec (seen h) (k + 1)) as [L|L]; [|rewrite B, O; reflexivity]. rewrite Z2Nat.id; [reflexivity|].
    enough (0 <= seen h) by lia. unfold seen. assert (forall h a, a <= fold_left (fun m x => Z.max m (needs x)) h a) as G; [|apply G].
    clear. induction h as [|x h IH]; intros a; cbn; [lia|]. specialize (IH (Z.max a (needs x))). lia.
  Qed.
  Lemma main_key_error s h k : init E f = Ok s -> Forall no_metric h -> filled (h ++ [CClosure k]) <= 2 -> fst (in_metric k (run h s)) = Err KeyError.
  Proof.
    intros Hi Hh L. destruct (reach s h k Hi Hh) as (m & A & B). apply (metric_key_error enum Henum E ezero mulZ erase solve f coef (init_coords s Hi) k _ m A). lia.
  Qed.
  Lemma main_two_dimensions s h k : init E f = Ok s -> Forall no_metric h -> 2 < filled (h ++ [CClosure k]) -> n = 2%nat -> fst (in_metric k (run h s)) = Err IndexError.
  Proof.
    intros Hi Hh L N. destruct (reach s h k Hi Hh) as (m & A & B).
    apply (metric_spec enum Henum E ezero mulZ erase solve f coef (init_coords s Hi) k _ m A); [lia|].
    exists (twice 2 0). split; [unfold coords; rewrite N; apply twice_index; lia|]. left. unfold metric_indices, coords. rewrite N. cbn. lia.
  Qed.
  Lemma indices_eq a : metric_indices f a = (if Nat.eqb n 1 then 0%nat else Z.to_nat (nth 0 a 0), if Nat.eqb n 1 then 0%nat else Z.to_nat (nth 1 a 0)) \/ n = 0%nat.
  Proof.
    unfold metric_indices, coords. destruct n as [|[|m]]; [right; reflexivity|left; reflexivity|left]. destruct (Z.ltb_spec 1 (Z.of_nat (S (S m)))); [reflexivity|lia].
  Qed.
  Lemma main_other_dimensions s h k : init E f = Ok s -> Forall no_metric h -> 2 < filled (h ++ [CClosure k]) -> n <> 2%nat ->
    exists qs o, fst (in_metric k (run h s)) = Ok o
    /\ (forall q, In q qs <-> exists alpha, multi_index n 2 alpha /\ written f (fun a => erase (mulZ 2 (coef a))) alpha q)
    /\ forall p alpha, multi_index n p alpha -> p < filled (h ++ [CClosure k]) ->
       exists d, dget Z.eq_dec p o = Some d /\ dget ztuple_dec alpha d = Some (solve qs (if p =? 2 then erase (mulZ 2 (coef alpha)) else mulZ (factorial p) (coef alpha))).
  Proof.
    intros Hi Hh L N. destruct (reach s h k Hi Hh) as (m & A & B).
    destruct (metric_spec enum Henum E ezero mulZ erase solve f coef (init_coords s Hi) k _ m A ltac:(lia)) as [_ X].
    assert (N0 : n <> 0%nat) by (pose proof (init_coords s Hi) as H; unfold coords in H; destruct (spatial_coordinates f); cbn; congruence).
    destruct X as (qs & o & W & O & _ & _ & V).
    { intros a Ha [D|D]; unfold coords in D; destruct (indices_eq a) as [Q|Q]; try tauto; rewrite Q in D; cbn [fst snd] in D; unfold coords in Ha;
        pose proof (nth_entry _ _ _ 0 Ha); pose proof (nth_entry _ _ _ 1 Ha); destruct (Nat.eqb_spec n 1); lia. }
    exists qs, o. split; [exact O|]. split.
    - assert (WE : forall a q, written f (fun a => erase (mulZ 2 (coef a))) a q <-> equation E erase f (fun a => mulZ 2 (coef a)) a q).
      { intros a q. unfold written, equation. destruct (indices_eq a) as [Q|Q]; [|tauto]. rewrite Q. cbn [fst snd]. tauto. }
      assert (SA : forall a, In a (map p_tuple (alphas enum f 2)) <-> multi_index n 2 a) by apply (alphas_ok enum Henum f (init_coords s Hi) 2).
      intros q. split.
      + intros Hq. revert Hq SA. generalize (map p_tuple (alphas enum f 2)) as l, W. clear - WE.
        intros l W Hq SA. assert (G : exists a, In a l /\ equation E erase f (fun a => mulZ 2 (coef a)) a q).
        { clear SA. induction W; [destruct Hq|]. destruct Hq as [->|Hq]; [eexists; split; [now left|eassumption]|]. destruct (IHW Hq) as (a & I & H'). exists a. split; [now right|exact H']. }
        destruct G as (a & Ia & Ea). exists a. split; [apply SA; exact Ia|apply WE; exact Ea].
      + intros (a & Ha & Wa). apply SA in Ha. apply WE in Wa. clear SA. revert Ha. generalize (map p_tuple (alphas enum f 2)) as l, W. clear - Wa.
        intros l W Ha. induction W as [|b y l' ys Hb W IH]; [destruct Ha|]. destruct Ha as [->|Ha]; [|right; auto]. left.
        destruct Wa as (A1 & A2 & A3), Hb as (B1 & B2 & B3). destruct y as [[g x] v], q as [[g' x'] v']. cbn [fst snd] in *. congruence.
    - intros p a Ha Hp. destruct (V p) as (d & D1 & _ & D2).
      { destruct Ha as (_ & P & <-). pose proof (degree_nonneg a P). lia. }
      exists d. split; [exact D1|]. apply D2. exact Ha.
  Qed.
  (** from three dimensions on, the terms D_x0^2 and D_x1^2 get the same label: the entry (0,2) *)
  Lemma main_labels val q q' : (2 < n)%nat -> written f (E := E) val (twice n 0) q -> written f val (twice n 1) q' ->
    fst q = fst q' /\ metric_func f 0 2 = Ok (fst (fst q)).
  Proof.
    unfold written. intros N. destruct (Nat.eqb_spec n 1); [lia|]. rewrite !twice_nth by lia. cbn [Nat.eqb].
    change (Z.to_nat 2) with 2%nat. change (Z.to_nat 0) with 0%nat. intros (A & B & _) (A' & B' & _).
    rewrite metric_func_sym in A. rewrite aspect_func_sym in B. split; [|exact A]. destruct q as [[g x] v], q' as [[g' x'] v']. cbn [fst snd] in *. congruence.
  Qed.
End Main.
