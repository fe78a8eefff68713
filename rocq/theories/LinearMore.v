(** Corollaries used by LinearProps. *)
From Coq Require Import List Arith Bool Lia Permutation QArith Qcanon FunctionalExtensionality Ring Field.
From Verif Require Import PyBase PyBaseFacts Scalars ForecastModel ForecastSpec ForecastProofs
  EnsembleProofs SchemesModel SchemesSpec SchemesProofs ModelProofs.
Import ListNotations.
Close Scope Q_scope. Close Scope Qc_scope.
Open Scope nat_scope.
Open Scope py_scope.

Lemma mapM_Err_In {A B} (f : A -> res B) l e :
  mapM f l = Err e -> exists x, In x l /\ f x = Err e.
Proof.
  induction l as [|x l IH]; simpl; [discriminate|].
  destruct (f x) eqn:E; simpl; [|intros H; inversion H; subst; eauto].
  destruct (mapM f l); simpl; [discriminate|]. intros H; inversion H; subst.
  destruct IH as (y & Hy & Hf); eauto.
Qed.

(** the sequential evaluation is one possible run of the pool (one chunk) *)
Lemma seq_is_pool {T D S TR} teq tsub (scheme : TR -> T -> S -> D -> res S) trend :
  (forall t u d, exists v, scheme trend t u d = Ok v) ->
  pool_ens (T:=T) teq tsub scheme trend (ensemble_seq teq tsub scheme trend).
Proof.
  intros Htot w sts sv. exists (map (fun x => [x]) sts), (seq 0 (length (map (fun x => [x]) sts))).
  assert (Hc : concat (map (fun x : S => [x]) sts) = sts).
  { clear. induction sts; simpl; congruence. }
  split; [exact Hc|]. split; [apply Permutation_refl|].
  destruct (ensemble_par_spec teq tsub scheme trend w sv _ _
     (Permutation_refl (seq 0 (length (map (fun x : S => [x]) sts))))) as (r & Hr & Hm).
  rewrite Hr. rewrite Hc in Hm. destruct (ensemble_seq teq tsub scheme trend w sts sv) as [d|e] eqn:E.
  - subst; auto.
  - destruct Hm as [[-> ->]|(st & e' & Hi & Hf & ->)]; auto.
    assert (G : forall x e0, forecast teq tsub scheme trend w x sv = Err e0 ->
                 sv <> SOther -> e0 = IndexError).
    { intros x e0 H Hs. apply forecast_Err in H as [[_ H]|[(_ & H & _)|[_ H]]]; [auto|tauto|].
      destruct H as (k & t & t' & u & _ & _ & _ & F).
      destruct (Htot t u (tsub t' t)); congruence. }
    destruct (saved_list w sv) as [l|] eqn:Hl.
    + assert (Hs : sv <> SOther) by (intros ->; discriminate).
      pose proof (ensemble_seq_spec teq tsub scheme trend w sts sv l Hl) as Hq.
      destruct (mapM _ sts) as [fcs|e0] eqn:Em; [destruct Hq as (? & Hq & _); congruence|].
      apply mapM_Err_In in Em as (x & _ & Hx).
      rewrite (G _ _ Hx Hs) in Hq. rewrite (G _ _ Hf Hs). congruence.
    + destruct sv; try discriminate.
      rewrite ensemble_seq_SOther in E. unfold ensemble_par in Hr. cbn in Hr. congruence.
Qed.

Section M.
  Variable K : Fld.
  Add Field KfL : (f_th K).
  Variable keq : forall a b : K, {a = b} + {a <> b}.
  Context {I : Type}.
  Variable ieq : forall a b : I, {a = b} + {a <> b}.
  Variable ix : nat -> I.
  Variable n : nat.
  Hypothesis ix_all : forall i, exists k, (k < n) /\ ix k = i.
  Hypothesis ix_inj : forall j k, j < n -> k < n -> ix j = ix k -> j = k.
  Variable s : onestep.
  Variable L : K -> arr K I -> arr K I.
  Hypothesis Llin : forall t, linear (L t).
  Variable ens : list K -> list (arr K I) -> saved K -> res (dict K (list (arr K I))).
  Hypothesis Hens : pool_ens keq fsub (onestep_fun s) (pure L) ens.
  Notation basis := (fun (k : nat) (j : I) => if ieq (ix k) j then @f1 K else f0).
  Let enum := map ix (seq 0 n).

  Lemma enum_nodup' : NoDup enum.
  Proof.
    unfold enum. assert (G : forall l, (forall k, In k l -> k < n) -> NoDup l -> NoDup (map ix l)).
    { induction l as [|x l IH]; intros H1 H2; simpl; constructor.
      - inversion H2; subst. intros Hin. apply in_map_iff in Hin as (y & Hy & Hin).
        apply ix_inj in Hy; [subst; tauto| |]; apply H1; simpl; auto.
      - inversion H2; subst. apply IH; auto. intros; apply H1; simpl; auto. }
    apply G; [intros k Hk; apply in_seq in Hk; lia|apply seq_NoDup].
  Qed.
  Lemma enum_all' : forall i, In i enum.
  Proof.
    intros i. destruct (ix_all i) as (k & Hk & <-). apply in_map. apply in_seq. lia.
  Qed.

  Lemma make_M_rows' w :
    w <> [] ->
    exists M, make_M keq ens n basis w = Ok M /\ length M = n
      /\ forall k, k < n -> exists row, nth_error M k = Some row
           /\ final K keq s L w (basis k) row.
  Proof.
    intros Hw.
    destruct (make_M_rows K keq ieq enum s L ens Hens ix n eq_refl w Hw) as (M & HM & HF).
    exists M. split; [exact HM|]. split.
    - assert (Hl : length enum = length M) by (clear - HF; induction HF; simpl; auto).
      rewrite <- Hl. unfold enum. rewrite map_length, seq_length. reflexivity.
    - intros k Hk.
      destruct (Forall2_nth _ _ _ HF k (ix k) (enum_nth enum ix n eq_refl k Hk)) as (row & Hr & Hf).
      eauto.
  Qed.

  Lemma nth_error_nth_vz (M : list (arr K I)) k v : nth_error M k = Some v -> nth k M vzero = v.
  Proof. intros H. apply nth_error_nth with (d := vzero) in H. exact H. Qed.

  Lemma combine_seq (u0 : arr K I) (M : list (arr K I)) j : length M = n ->
    map (fun iv : I * arr K I => fmul (u0 (fst iv)) (snd iv j)) (combine enum M)
    = map (fun k => fmul (u0 (ix k)) (nth k M vzero j)) (seq 0 n).
  Proof.
    unfold enum. intros Hl.
    assert (G : forall n M m, length M = n ->
      map (fun iv : I * arr K I => fmul (u0 (fst iv)) (snd iv j)) (combine (map ix (seq m n)) M)
    = map (fun k => fmul (u0 (ix k)) (nth (k - m) M vzero j)) (seq m n)).
    { induction n0 as [|n0 IH]; intros M0 m0 H; [reflexivity|].
      destruct M0 as [|v M0]; [discriminate|]. cbn [seq map combine fst snd].
      rewrite Nat.sub_diag. f_equal. rewrite IH by (simpl in H; lia).
      apply map_ext_in. intros k Hk. apply in_seq in Hk.
      replace (k - m0) with (Datatypes.S (k - Datatypes.S m0)) by lia. reflexivity. }
    rewrite G by auto. apply map_ext. intros. rewrite Nat.sub_0_r. reflexivity.
  Qed.

  Lemma make_M_left' w u0 M v :
    w <> [] -> make_M keq ens n basis w = Ok M -> final K keq s L w u0 v ->
    forall j, v j = lsum K (map (fun k => fmul (u0 (ix k)) (nth k M vzero j)) (seq 0 n)).
  Proof.
    intros Hw HM Hf j.
    destruct (make_M_left K keq ieq enum enum_nodup' enum_all' s L Llin ens Hens ix n eq_refl
                w u0 M v Hw HM Hf) as [Hl Hv].
    rewrite Hv. apply f_equal. apply combine_seq; auto.
  Qed.

  Lemma make_M_right_iff' w M :
    w <> [] -> make_M keq ens n basis w = Ok M ->
    (forall u0 v, final K keq s L w u0 v -> forall k, k < n ->
       v (ix k) = lsum K (map (fun j => fmul (nth k M vzero (ix j)) (u0 (ix j))) (seq 0 n)))
    <-> (forall k j, k < n -> j < n -> nth k M vzero (ix j) = nth j M vzero (ix k)).
  Proof.
    intros Hw HM.
    pose proof (make_M_right_iff K keq ieq enum enum_nodup' enum_all' s L Llin ens Hens ix n eq_refl
                w M Hw HM) as H.
    destruct (make_M_rows' w Hw) as (M' & HM' & Hl & _). rewrite HM in HM'. inversion HM'; subst M'.
    assert (Hn : forall k, k < n -> nth_error M k = Some (nth k M vzero)).
    { intros k Hk. apply nth_error_nth'. lia. }
    assert (Hmv : forall u0 k, k < n -> matvec K enum M u0 k =
       lsum K (map (fun j => fmul (nth k M vzero (ix j)) (u0 (ix j))) (seq 0 n))).
    { intros u0 k Hk. unfold matvec. rewrite (Hn k Hk). unfold enum. rewrite map_map. reflexivity. }
    transitivity (forall u0 v, final K keq s L w u0 v -> forall k, k < n -> v (ix k) = matvec K enum M u0 k).
    { split; intros G u0 v Hf k Hk; [rewrite Hmv by auto|rewrite <- Hmv by auto]; apply G; auto. }
    rewrite H. split.
    - intros G k j Hk Hj. apply G; auto.
    - intros G k j a b Ha Hb.
      assert (Hk : k < n) by (rewrite <- Hl; apply nth_error_Some; congruence).
      assert (Hj : j < n) by (rewrite <- Hl; apply nth_error_Some; congruence).
      rewrite (Hn k Hk) in Ha. rewrite (Hn j Hj) in Hb. inversion Ha; inversion Hb; subst. auto.
  Qed.
End M.

Definition shiftL : QcF -> arr QcF bool -> arr QcF bool :=
  fun _ u i => if i then u false else f0.

Lemma shiftL_linear t : linear (shiftL t).
Proof.
  split; intros; apply functional_extensionality; intros []; unfold shiftL, vadd, vscale; simpl; ring.
Qed.

Lemma make_M_refutation :
  exists (L : QcF -> arr QcF bool -> arr QcF bool) (w : list QcF) (u0 v : arr QcF bool) M ens,
    (forall t, linear (L t)) /\
    pool_ens qeq fsub (onestep_fun SEuler) (pure L) ens /\
    make_M qeq ens 2 (fun k j => if Bool.bool_dec (Nat.eqb k 0) j then f1 else f0) w = Ok M /\
    final QcF qeq SEuler L w u0 v /\
    v true <> lsum QcF (map (fun i => fmul (nth 0 M vzero i) (u0 i)) [true; false]).
Proof.
  set (w := [qc 0 1; qc 1 1]).
  set (u0 := fun b : bool => if b then qc 0 1 else qc 1 1).
  destruct (final_exists QcF qeq SEuler shiftL w u0 ltac:(discriminate)) as [v Hv].
  set (ens := ensemble_seq qeq fsub (onestep_fun SEuler) (pure shiftL)).
  destruct (make_M qeq ens 2 (fun k j => if Bool.bool_dec (Nat.eqb k 0) j then f1 else f0) w)
    as [M|e] eqn:EM; [|vm_compute in EM; discriminate].
  exists shiftL, w, u0, v, M, ens.
  split; [apply shiftL_linear|]. split; [apply seq_is_pool; intros; apply pure_total|].
  split; [exact EM|]. split; [exact Hv|].
  destruct Hv as (te & d & H1 & H2 & H3). vm_compute in H1. inversion H1; subst te; clear H1.
  vm_compute in H2. inversion H2; subst d; clear H2. vm_compute in H3. inversion H3; subst v; clear H3.
  vm_compute in EM. inversion EM; subst M; clear EM. vm_compute. discriminate.
Qed.

Definition dblL : QcF -> arr QcF unit -> arr QcF unit := fun _ u => u.

Lemma tl_duplicates :
  exists (f : QcF -> arr QcF unit -> arr QcF unit) (h : QcF) w u p t tl ens,
    affine_with QcF f f /\ h <> f0 /\ In t w /\
    pool_ens qeq fsub (onestep_fun SEuler) (pure f) ens /\
    (exists fc, forecast_tl qeq fsub (onestep_fun SEuler) (pure f)
        (fun st p => vadd st (vscale h p)) (fun a b => vdiv (vsub a b) h) ens w u [p]
        (SIter [t; t]) = Ok (fc, tl)) /\
    exists d v, forecast qeq fsub (onestep_fun SEuler) (pure f) w p (SIter [t; t]) = Ok d
      /\ dget qeq t d = Some v /\ dget qeq t tl <> Some [v].
Proof.
  set (w := [qc 0 1; qc 1 1]). set (one := (fun _ => qc 1 1) : arr QcF unit).
  set (ens := ensemble_seq qeq fsub (onestep_fun SEuler) (pure dblL)).
  destruct (forecast_tl qeq fsub (onestep_fun SEuler) (pure dblL)
        (fun st p => vadd st (vscale (qc 1 2) p)) (fun a b => vdiv (vsub a b) (qc 1 2)) ens w one [one]
        (SIter [qc 1 1; qc 1 1])) as [[fc tl]|e] eqn:E; [|vm_compute in E; discriminate].
  destruct (forecast qeq fsub (onestep_fun SEuler) (pure dblL) w one (SIter [qc 1 1; qc 1 1]))
    as [d|e] eqn:Ed; [|vm_compute in Ed; discriminate].
  destruct (dget qeq (qc 1 1) d) as [v|] eqn:Ev.
  2:{ vm_compute in Ed. inversion Ed; subst d. vm_compute in Ev. discriminate. }
  exists dblL, (qc 1 2), w, one, one, (qc 1 1), tl, ens.
  split; [intros t u h p; reflexivity|]. split; [discriminate|]. split; [right; left; reflexivity|].
  split; [apply seq_is_pool; intros; apply pure_total|]. split; [eauto|].
  exists d, v. split; [exact Ed|]. split; [exact Ev|].
  vm_compute in Ed. inversion Ed; subst d; clear Ed.
  vm_compute in Ev. inversion Ev; subst v; clear Ev.
  vm_compute in E. inversion E; subst tl; clear E.
  intros H. vm_compute in H. inversion H as [H1]. apply (f_equal (fun f => f tt)) in H1.
  vm_compute in H1. discriminate.
Qed.
