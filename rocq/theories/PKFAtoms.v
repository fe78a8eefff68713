(** Which atoms occur in the results of the operations of PKFModel. *)
From Coq Require Import List Arith QArith Bool String Permutation.
From Verif Require Import PyBase PKFModel.
Import ListNotations.
Close Scope Q_scope.
Open Scope nat_scope.
Open Scope string_scope.
Open Scope list_scope.

Definition mall (P : atom -> Prop) (m : mono) : Prop := forall a, In a m -> P a.
Definition pall (P : atom -> Prop) (p : poly) : Prop := forall c m, In (c, m) p -> mall P m.

Section All.
  Variable P : atom -> Prop.

  Lemma insert_in a m b : In b (insert_atom a m) -> b = a \/ In b m.
  Proof.
    induction m as [|x r IH]; cbn [insert_atom]; [intros [->|[]]; auto|].
    destruct (atom_lt x a).
    - intros [->|H]; [right; left; reflexivity|]. destruct (IH H); auto. right; right; assumption.
    - intros [->|H]; auto.
  Qed.
  Lemma remove_in a m r b : remove_atom a m = Some r -> In b r -> In b m.
  Proof.
    revert r. induction m as [|x m IH]; intros r H Hb; cbn [remove_atom] in H; [discriminate|].
    destruct (atom_eq_dec a x); [injection H as <-; right; exact Hb|].
    destruct (remove_atom a m) as [r'|]; [|discriminate]. injection H as <-.
    destruct Hb as [->|Hb]; [left; reflexivity|right; apply (IH r' eq_refl Hb)].
  Qed.
  Lemma mins_in a m b : In b (mins a m) -> b = a \/ In b m.
  Proof.
    unfold mins. destruct (inverse a) as [x|]; [|apply insert_in].
    destruct (remove_atom x m) as [r|] eqn:H; [|apply insert_in].
    intros Hb. right. exact (remove_in _ _ _ _ H Hb).
  Qed.
  Lemma mmul_all a b : mall P a -> mall P b -> mall P (mmul a b).
  Proof.
    intros Ha Hb. unfold mmul. induction a as [|x a IH]; cbn [fold_right]; [exact Hb|].
    intros y Hy. destruct (mins_in _ _ _ Hy) as [->|H]; [apply Ha; left; reflexivity|].
    apply IH; [intros z Hz; apply Ha; right; exact Hz|exact H].
  Qed.
  Lemma mall_nil : mall P [].
  Proof. intros a []. Qed.
  Lemma mall_cons a m : P a -> mall P m -> mall P (a :: m).
  Proof. intros Ha Hm b [<-|Hb]; [exact Ha|apply Hm, Hb]. Qed.
  Lemma pall_nil : pall P [].
  Proof. intros c m []. Qed.
  Lemma pall_cons t p : mall P (snd t) -> pall P p -> pall P (t :: p).
  Proof. intros Ht Hp c m [->|H]; [exact Ht|exact (Hp c m H)]. Qed.
  Lemma pall_tail t p : pall P (t :: p) -> pall P p.
  Proof. intros H c m Hm. apply (H c m). right; exact Hm. Qed.
  Lemma pall_head t p : pall P (t :: p) -> mall P (snd t).
  Proof. intros H. apply (H (fst t)). left. destruct t; reflexivity. Qed.
  Lemma pall_one m : mall P m -> pall P [(1%Q, m)].
  Proof. intros H. apply pall_cons; [exact H|apply pall_nil]. Qed.
  Lemma pall_atom a : P a -> pall P [(1%Q, [a])].
  Proof. intros H. apply pall_one, mall_cons; [exact H|apply mall_nil]. Qed.
  Lemma pins_all t p : mall P (snd t) -> pall P p -> pall P (pins t p).
  Proof.
    intros Ht Hp. induction p as [|u r IH]; cbn [pins].
    - destruct (Qeq_bool (fst t) 0); [exact Hp|apply pall_cons; auto].
    - destruct (Qeq_bool (fst t) 0); [exact Hp|].
      destruct (list_eq_dec atom_eq_dec (snd t) (snd u)).
      + destruct (Qeq_bool (Qred (fst t + fst u)) 0); [exact (pall_tail _ _ Hp)|].
        apply pall_cons; [exact (pall_head _ _ Hp)|exact (pall_tail _ _ Hp)].
      + destruct (mono_lt (snd u) (snd t)); apply pall_cons; auto.
        * exact (pall_head _ _ Hp). * apply IH. exact (pall_tail _ _ Hp).
  Qed.
  Lemma padd_all p q : pall P p -> pall P q -> pall P (padd p q).
  Proof.
    intros Hp Hq. unfold padd. induction p as [|t p IH]; cbn [fold_right]; [exact Hq|].
    apply pins_all; [exact (pall_head _ _ Hp)|apply IH, (pall_tail _ _ Hp)].
  Qed.
  Lemma pscale_all c p : pall P p -> pall P (pscale c p).
  Proof.
    intros Hp. unfold pscale. induction p as [|t p IH]; cbn [fold_right]; [exact Hp|].
    apply pins_all; [exact (pall_head _ _ Hp)|apply IH, (pall_tail _ _ Hp)].
  Qed.
  Lemma psub_all p q : pall P p -> pall P q -> pall P (psub p q).
  Proof. intros. apply padd_all; [|apply pscale_all]; assumption. Qed.
  Lemma pmulm_all c m p : mall P m -> pall P p -> pall P (pmulm c m p).
  Proof.
    intros Hm Hp. unfold pmulm. induction p as [|t p IH]; cbn [fold_right]; [exact Hp|].
    apply pins_all; [apply mmul_all; [exact Hm|exact (pall_head _ _ Hp)]|apply IH, (pall_tail _ _ Hp)].
  Qed.
  Lemma pmul_all p q : pall P p -> pall P q -> pall P (pmul p q).
  Proof.
    intros Hp Hq. unfold pmul. induction p as [|t p IH]; cbn [fold_right]; [exact Hp|].
    apply padd_all; [apply pmulm_all; [exact (pall_head _ _ Hp)|exact Hq]|apply IH, (pall_tail _ _ Hp)].
  Qed.
  Lemma pone_all : pall P pone.
  Proof. apply pall_one, mall_nil. Qed.
  Lemma patom_all a : P a -> pall P (patom a).
  Proof. intros H. apply pall_one. intros b Hb. destruct (mins_in _ _ _ Hb) as [->|[]]. exact H. Qed.
  Lemma pprod_all l : (forall p, In p l -> pall P p) -> pall P (pprod l).
  Proof.
    unfold pprod. induction l as [|p l IH]; intros H; cbn [fold_right]; [apply pone_all|].
    apply pmul_all; [apply H; left; reflexivity|apply IH; intros; apply H; right; assumption].
  Qed.
  Lemma psum_all l : (forall p, In p l -> pall P p) -> pall P (psum l).
  Proof.
    unfold psum. induction l as [|p l IH]; intros H; cbn [fold_right]; [apply pall_nil|].
    apply padd_all; [apply H; left; reflexivity|apply IH; intros; apply H; right; assumption].
  Qed.
  Lemma filter_all g p : pall P p -> pall P (filter g p).
  Proof. intros H c m Hm. apply filter_In in Hm. exact (H c m (proj1 Hm)). Qed.
  Lemma mfilter_all g m : mall P m -> mall P (filter g m).
  Proof. intros H a Ha. apply filter_In in Ha. exact (H a (proj1 Ha)). Qed.

  (** derivatives, if [P] is stable under them *)
  Hypothesis HD : forall c a, P a -> pall P (datom c a).
  Lemma dmono_all c m : mall P m -> pall P (dmono c m).
  Proof.
    induction m as [|a r IH]; intros H; cbn [dmono]; [apply pall_nil|].
    assert (Ha : P a) by (apply H; left; reflexivity).
    assert (Hr : mall P r) by (intros b Hb; apply H; right; exact Hb).
    apply padd_all; apply pmulm_all; auto. apply mall_cons; [exact Ha|apply mall_nil].
  Qed.
  Lemma pderiv_all c p : pall P p -> pall P (pderiv c p).
  Proof.
    intros Hp. unfold pderiv. induction p as [|t p IH]; cbn [fold_right]; [apply pall_nil|].
    apply padd_all; [apply pscale_all, dmono_all, (pall_head _ _ Hp)|apply IH, (pall_tail _ _ Hp)].
  Qed.
  Lemma pderivs_all w p : pall P p -> pall P (pderivs w p).
  Proof. intros Hp. unfold pderivs. induction w; cbn [fold_right]; [exact Hp|apply pderiv_all; assumption]. Qed.

End All.

Section Replace.
  Variables P Q : atom -> Prop.
  Lemma replace_all (h : atom -> poly) p : pall P p -> (forall a, P a -> pall Q (h a)) ->
    pall Q (psum (map (fun t => pscale (fst t) (pprod (map h (snd t)))) p)).
  Proof.
    intros Hp Hh. apply psum_all. intros q Hq. apply in_map_iff in Hq. destruct Hq as (t & <- & Ht).
    apply pscale_all, pprod_all. intros r Hr. apply in_map_iff in Hr. destruct Hr as (a & <- & Ha).
    apply Hh. apply (Hp (fst t) (snd t)); [destruct t; exact Ht|exact Ha].
  Qed.
  (** averages: the deterministic factors stay, the random ones go into an average *)
  Lemma expect_all p : pall P p ->
    (forall a, P a -> (forall f w, a = AJet f w -> is_random f = false) -> Q a) ->
    (forall w l, (forall j, In j l -> is_random (fst j) = true /\ exists w', P (AJet (fst j) w')) -> Q (AExp w l)) ->
    pall Q (expect p).
  Proof.
    intros Hp Hd He. apply psum_all. intros q Hq. apply in_map_iff in Hq. destruct Hq as ([c m] & <- & Ht).
    cbn [fst snd]. specialize (Hp c m Ht). apply pmulm_all.
    - intros a Ha. unfold det_part in Ha. apply filter_In in Ha. destruct Ha as [Ha Hr].
      apply Hd; [apply Hp, Ha|]. intros f w ->. destruct (is_random f); [discriminate|reflexivity].
    - assert (HR : forall j, In j (random_jets m) -> is_random (fst j) = true /\ P (AJet (fst j) (snd j))).
      { intros j Hj. unfold random_jets in Hj. apply in_flat_map in Hj. destruct Hj as (a & Ha & Hj).
        destruct a; try destruct Hj. destruct (is_random f) eqn:Hr; [|destruct Hj]. destruct Hj as [<-|[]].
        split; [exact Hr|apply Hp, Ha]. }
      destruct (random_jets m) as [|[f w] [|j l]] eqn:HJ; cbn [expect_jets].
      + apply pone_all.
      + apply pall_atom, He. intros j [<-|[]]. destruct (HR (f, w) (or_introl eq_refl)) as [H1 H2].
        split; [exact H1|exists w; exact H2].
      + apply pall_atom, He. intros k Hk. destruct (HR k Hk) as [H1 H2]. split; [exact H1|exists (snd k); exact H2].
  Qed.
End Replace.

Lemma pall_weaken (P Q : atom -> Prop) p : (forall a, P a -> Q a) -> pall P p -> pall Q p.
Proof. intros H Hp c m Hm a Ha. apply H. exact (Hp c m Hm a Ha). Qed.
Lemma pjet_all (P : atom -> Prop) f w : P (AJet f w) -> (forall i, f = FVar i -> P (ASig i)) -> pall P (pjet f w).
Proof.
  intros H1 H2. assert (D : pall P [(1%Q, [AJet f w])]) by (apply pall_atom, H1).
  destruct f; try exact D; unfold pjet.
  - destruct w; [|exact D]. apply pall_one. intros a [<-|[<-|[]]]; apply H2; reflexivity.
  - destruct (forallb _ w); [exact D|apply pall_nil].
Qed.
