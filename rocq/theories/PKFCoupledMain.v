(** Coupled linear systems: what is closed (C121). *)
From Coq Require Import List Arith Ring ZArith QArith Qcanon Bool String Permutation Lia.
From Verif Require Import PyBase PyBaseFacts PartialOrderModel TreeModel Reynolds PKFModel PKFSpec PKFAlg PKFTensor PKFTimeSpec PKFOrderSpec PKFMore PKFShape
  PKFReduced PKFDegreeMain PKFClosure PKFLinearSpec PKFLinear PKFTransport PKFTransportMain PKFCoupledSpec PKFCoupled.
Import ListNotations.
Close Scope Q_scope.
Close Scope Qc_scope.
Close Scope Z_scope.
Open Scope nat_scope.
Open Scope string_scope.
Open Scope list_scope.

Section Main.
  Variables (enum : list mi -> list mi) (enumD : tdict -> tdict) (enumC : edict -> edict)
    (enumF : list (fn * poly) -> list (fn * poly)) (enumU : list fn -> list fn) (coords : list string).
  Hypothesis HR : rearrangements enum enumD enumC enumF enumU.
  Hypothesis Hcoords : NoDup coords.
  Hypothesis Hne : coords <> [].
  Hypothesis Ht : ~ In "t" coords.

  Lemma order_zero_closed eqs : user_system eqs -> Forall (spatial_poly coords) eqs -> Forall (order_at_most 0) eqs ->
    exists v c, variance_system enum enumD enumC enumF enumU coords eqs = Ok v
      /\ cross_covariance_system enum enumD enumC enumF enumU coords eqs = Ok c
      /\ no_average (v ++ optional c).
  Proof.
    intros HU HS HK. destruct (main_orders enum enumD enumC enumF enumU coords eqs 0 HR Hcoords Hne Ht HU HS HK) as (e & v & c & m & He & Hv & Hc & Hm & _ & O & _).
    destruct (main_reduced enum enumD enumC enumF enumU coords eqs HR Hcoords Hne Ht HU HS) as (v' & c' & m' & Hv' & Hc' & Hm' & Red).
    rewrite Hv in Hv'. rewrite Hc in Hc'. rewrite Hm in Hm'. apply Ok_inj in Hv', Hc', Hm'. subst v' c' m'.
    exists v, c. split; [exact Hv|]. split; [exact Hc|]. intros q l Hq Hl. destruct (O q l Hq Hl) as [L T].
    assert (R : reduced (List.length eqs) l) by (apply (Red q l); [rewrite app_assoc; apply in_app_iff; left; exact Hq|exact Hl]).
    destruct R as (_ & N & R). destruct l as [|[f w] [|[f' w'] [|]]]; try discriminate. cbn in T.
    destruct (N (f, w) (or_introl eq_refl)) as (i & _ & Ef). destruct (N (f', w') (or_intror (or_introl eq_refl))) as (j & _ & Ef'). cbn in Ef, Ef'. subst.
    assert (W : w = [] /\ w' = []) by (destruct w, w'; cbn in T; try lia; auto). destruct W; subst.
    destruct (R i [] j [] eq_refl) as [[_ [H|H]]|(_ & _ & H)]; [congruence|congruence|cbn in H; lia].
  Qed.
  Lemma coupled_values deps n react source : (forall i j, given_poly (react i j)) -> (forall i, given_poly (source i)) ->
    let eqs := coupled_system coords deps n react source in
    exists m, in_metric enum enumD enumC enumF enumU coords eqs [] = Ok m
      /\ (exists fs, NoDup fs /\ map fst m = map time_derivative fs /\ forall g, In g fs <-> described coords n true FMet g)
      /\ forall (A : RAlg) (E : env A), statistics coords n E -> coupled coords deps n react source E m.
  Proof.
    intros HG HQ eqs. destruct (coupled_main enum enumD enumC enumF enumU coords HR Hcoords Hne Ht deps n react source HG HQ) as (m & Hm & L & V).
    exists m. split; [exact Hm|]. split; [|exact V]. exists (described_list coords eqs true FMet). split; [|split; [exact L|]].
    - apply described_nodup; [intros i x y j x' y' E; injection E; auto|intros; exact I].
    - intros g. rewrite described_in. unfold eqs. rewrite coupled_length. reflexivity.
  Qed.
  Lemma coupled_means deps n react source : (forall i j, given_poly (react i j)) -> (forall i, given_poly (source i)) ->
    exists e, expectation_system enum enumC enumF coords (coupled_system coords deps n react source) = Ok e /\ no_average e.
  Proof.
    intros HG HQ. apply (linear_mean enum enumD enumC enumF enumU coords HR Hcoords Hne Ht); [apply coupled_user|apply coupled_spatial|apply coupled_linear]; assumption.
  Qed.

  Lemma time_derivative_inj f g : time_derivative f = time_derivative g -> f = g.
  Proof. intros H. injection H. auto. Qed.
  Lemma td_in (m : list pequation) fs g : map fst m = map time_derivative fs -> In g fs -> exists x, In (time_derivative g, x) m.
  Proof.
    revert fs. induction m as [|[l x] m IH]; intros [|f fs] H Hg; try discriminate; [destruct Hg|]. cbn [map fst] in H. injection H as -> H.
    destruct Hg as [->|Hg]; [exists x; left; reflexivity|]. destruct (IH fs H Hg) as [y Hy]. exists y. right. exact Hy.
  Qed.
  Lemma choose (P : nat -> poly -> Prop) n : (forall i, i < n -> exists x, P i x) -> exists x, forall i, i < n -> P i (x i).
  Proof.
    induction n as [|n IH]; intros H; [exists (fun _ => []); intros; lia|]. destruct IH as [x Hx]; [intros; apply H; lia|].
    destruct (H n (le_n _)) as [y Hy]. exists (fun i => if Nat.eqb i n then y else x i). intros i Hi. destruct (Nat.eqb_spec i n) as [->|]; [exact Hy|apply Hx; lia].
  Qed.

  Section Sum.
    Context {A : RAlg} (E : env A).
    Add Ring A_ringS : (c_th A).
    Open Scope ra_scope.
    Lemma antisymmetric_zero n (f : nat -> nat -> A) : (forall i j, (i < n)%nat -> (j < n)%nat -> f i j = - f j i) ->
      among n (fun i => among n (f i)) + among n (fun i => among n (f i)) = 0.
    Proof.
      intros H. unfold among. rewrite (asum_swap f) at 2. rewrite <- asum_add. apply asum_zero. intros i Hi. rewrite <- asum_add. apply asum_zero.
      intros j Hj. apply in_seq in Hi, Hj. rewrite (H i j) by lia. ring.
    Qed.
    Lemma along_among coords' deps n f : along coords' deps E (among n f) = among n (fun i => along coords' deps E (f i)).
    Proof.
      unfold among. induction (seq 0 n) as [|k l IH]; cbn [map].
      - rewrite asum_nil. apply along_0.
      - rewrite !asum_cons, along_add, IH. reflexivity.
    Qed.
    Lemma rate_sum deps n react source : (forall i j, (i < n)%nat -> (j < n)%nat -> r react E i j = - r react E j i) ->
      among n (fun i => coupled_rate coords deps n react source E (FVar i)) = - along coords deps E (among n (fun i => e_fn E (FVar i))).
    Proof.
      intros H. cbn [coupled_rate]. rewrite among_add, along_among, <- among_opp.
      transitivity (- among n (fun i => along coords deps E (e_fn E (FVar i))) + (among n (fun i => among n (fun k => r react E i k * cov E i k)) + among n (fun i => among n (fun k => r react E i k * cov E i k)))).
      - f_equal. rewrite <- among_add. apply among_ext. intros i Hi. rewrite <- among_add. apply among_ext. intros k Hk. rewrite (cov_sym n E ltac:(lia) k i). reflexivity.
      - rewrite antisymmetric_zero; [ring|]. intros i j Hi Hj. rewrite (H i j Hi Hj), (cov_sym n E ltac:(lia) i j). ring.
    Qed.
  End Sum.
  Lemma coupled_sum deps n react source : (forall i j, given_poly (react i j)) -> (forall i, given_poly (source i)) ->
    let eqs := coupled_system coords deps n react source in
    exists m x, in_metric enum enumD enumC enumF enumU coords eqs [] = Ok m
      /\ (forall i, i < n -> In (time_derivative (FVar i), x i) m)
      /\ forall (A : RAlg) (E : env A), statistics coords n E -> (forall i j, i < n -> j < n -> r react E i j = (- r react E j i)%ra) ->
           among n (fun i => pv E (x i)) = (- along coords deps E (among n (fun i => e_fn E (FVar i))))%ra.
  Proof.
    intros HG HQ eqs. destruct (coupled_values deps n react source HG HQ) as (m & Hm & (fs & _ & L & Hfs) & V). exists m.
    destruct (choose (fun i x => In (time_derivative (FVar i), x) m) n) as [x Hx].
    { intros i Hi. apply (td_in m fs); [exact L|]. apply Hfs. right. left. exists i. auto. }
    exists x. split; [exact Hm|]. split; [exact Hx|]. intros A E HS HA. rewrite <- (rate_sum E deps n react source HA). apply among_ext. intros i Hi.
    destruct (V A E HS _ _ (Hx i Hi)) as (f & Ef & ->). apply time_derivative_inj in Ef. subst f. reflexivity.
  Qed.
End Main.
