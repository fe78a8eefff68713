(** The meaning of symbolic expressions: an algebra of (random) fields.

    An instance is any commutative ring containing the rationals, with one derivation per
    coordinate name, the derivations commuting, and an averaging operator [EE] with the
    rules of an expectation: linear, constants preserved, an average is pulled out of an
    average, averages commute with the derivations.  Nothing else is assumed: no topology,
    no probability space, no Gaussian law.  This is specification, not code of /repo. *)
From Coq Require Import List Ring QArith Qcanon String.
Import ListNotations.
Close Scope Q_scope.

Record RAlg := mkRAlg {
  C :> Type;
  c0 : C; c1 : C;
  cadd : C -> C -> C; cmul : C -> C -> C; csub : C -> C -> C; copp : C -> C;
  c_th : ring_theory c0 c1 cadd cmul csub copp (@eq C);
  cq : Qc -> C;
  cq_1 : cq 1%Qc = c1;
  cq_add : forall a b, cq (a + b)%Qc = cadd (cq a) (cq b);
  cq_mul : forall a b, cq (a * b)%Qc = cmul (cq a) (cq b);
  dd : string -> C -> C;
  dd_add : forall c a b, dd c (cadd a b) = cadd (dd c a) (dd c b);
  dd_mul : forall c a b, dd c (cmul a b) = cadd (cmul (dd c a) b) (cmul a (dd c b));
  dd_cq : forall c q, dd c (cq q) = c0;
  dd_comm : forall c d a, dd c (dd d a) = dd d (dd c a);
  EE : C -> C;
  EE_add : forall a b, EE (cadd a b) = cadd (EE a) (EE b);
  EE_pull : forall a b, EE (cmul (EE a) b) = cmul (EE a) (EE b);
  EE_cq : forall q, EE (cq q) = cq q;
  EE_dd : forall c a, EE (dd c a) = dd c (EE a) }.

Arguments c0 {r}. Arguments c1 {r}. Arguments cadd {r}. Arguments cmul {r}.
Arguments csub {r}. Arguments copp {r}. Arguments cq {r}. Arguments dd {r}. Arguments EE {r}.

Declare Scope ra_scope.
Delimit Scope ra_scope with ra.
Infix "+" := cadd : ra_scope.
Infix "*" := cmul : ra_scope.
Infix "-" := csub : ra_scope.
Notation "- x" := (copp x) : ra_scope.
Notation "0" := c0 : ra_scope.
Notation "1" := c1 : ra_scope.
Bind Scope ra_scope with C.

(** a deterministic element: its own average *)
Definition det {A : RAlg} (a : A) : Prop := EE a = a.

(** iterated derivative along a list of coordinates, the head of the list last *)
Fixpoint dds {A : RAlg} (l : list string) (a : A) : A :=
  match l with [] => a | c :: r => dd c (dds r a) end.

Fixpoint cpow {A : RAlg} (a : A) (n : nat) : A :=
  match n with O => c1 | S m => cmul a (cpow a m) end.

Section Facts.
  Context {A : RAlg}.
  Add Ring A_ring : (c_th A).
  Open Scope ra_scope.

  Lemma cq_0 : cq 0%Qc = (0 : A).
  Proof.
    assert (H : cq 0%Qc = cq 0%Qc + cq 0%Qc :> A) by (rewrite <- cq_add; f_equal).
    assert (E : (cq 0%Qc : A) = cq 0%Qc + cq 0%Qc - cq 0%Qc) by ring.
    rewrite E, <- H. ring.
  Qed.
  Lemma cq_opp q : cq (- q)%Qc = (- cq q : A).
  Proof.
    assert (H : cq q + cq (- q)%Qc = (0 : A)).
    { rewrite <- cq_add. replace (q + - q)%Qc with 0%Qc by (symmetry; apply Qcplus_opp_r). apply cq_0. }
    assert (E : (cq (- q)%Qc : A) = (cq q + cq (- q)%Qc) - cq q) by ring. rewrite E, H. ring.
  Qed.
  Lemma EE_0 : EE (0 : A) = 0.
  Proof. rewrite <- cq_0. apply EE_cq. Qed.
  Lemma EE_1 : EE (1 : A) = 1.
  Proof. rewrite <- cq_1. apply EE_cq. Qed.
  Lemma EE_idem (a : A) : EE (EE a) = EE a.
  Proof.
    replace (EE a) with (EE a * 1) at 1 by ring. rewrite EE_pull, EE_1. ring.
  Qed.
  Lemma EE_det_l (a b : A) : det a -> EE (a * b) = a * EE b.
  Proof. intros H. rewrite <- H at 1. rewrite EE_pull, H. reflexivity. Qed.
  Lemma EE_opp (a : A) : EE (- a) = - EE a.
  Proof.
    replace (- a) with (cq (- (1))%Qc * a) by (rewrite cq_opp, cq_1; ring).
    rewrite EE_det_l by apply EE_cq. rewrite cq_opp, cq_1. ring.
  Qed.
  Lemma EE_sub (a b : A) : EE (a - b) = EE a - EE b.
  Proof. replace (a - b) with (a + - b) by ring. rewrite EE_add, EE_opp. ring. Qed.
  Lemma dd_0 c : dd c (0 : A) = 0.
  Proof. rewrite <- cq_0 at 1. apply dd_cq. Qed.
  Lemma dd_1 c : dd c (1 : A) = 0.
  Proof. rewrite <- cq_1. apply dd_cq. Qed.
  Lemma dd_scal c q (a : A) : dd c (cq q * a) = cq q * dd c a.
  Proof. rewrite dd_mul, dd_cq. ring. Qed.
  Lemma dd_opp c (a : A) : dd c (- a) = - dd c a.
  Proof.
    replace (- a) with (cq (- (1))%Qc * a) by (rewrite cq_opp, cq_1; ring).
    rewrite dd_scal, cq_opp, cq_1. ring.
  Qed.
  Lemma dd_sub c (a b : A) : dd c (a - b) = dd c a - dd c b.
  Proof. replace (a - b) with (a + - b) by ring. rewrite dd_add, dd_opp. ring. Qed.

  Lemma dds_app l1 l2 (a : A) : dds (l1 ++ l2) a = dds l1 (dds l2 a).
  Proof. induction l1; simpl; congruence. Qed.
  Lemma dds_dd l c (a : A) : dds l (dd c a) = dd c (dds l a).
  Proof. induction l; simpl; [reflexivity|]. rewrite IHl. apply dd_comm. Qed.
  Lemma dds_comm l1 l2 (a : A) : dds l1 (dds l2 a) = dds l2 (dds l1 a).
  Proof. induction l1; simpl; [reflexivity|]. rewrite IHl1. symmetry. apply dds_dd. Qed.
  Lemma dds_add l (a b : A) : dds l (a + b) = dds l a + dds l b.
  Proof. induction l; simpl; [reflexivity|]. rewrite IHl. apply dd_add. Qed.
  Lemma dds_0 l : dds l (0 : A) = 0.
  Proof. induction l; simpl; [reflexivity|]. rewrite IHl. apply dd_0. Qed.
  Lemma dds_opp l (a : A) : dds l (- a) = - dds l a.
  Proof. induction l; simpl; [reflexivity|]. rewrite IHl. apply dd_opp. Qed.
  Lemma dds_scal l q (a : A) : dds l (cq q * a) = cq q * dds l a.
  Proof. induction l; simpl; [reflexivity|]. rewrite IHl. apply dd_scal. Qed.
  Lemma EE_dds l (a : A) : EE (dds l a) = dds l (EE a).
  Proof. induction l; simpl; [reflexivity|]. rewrite EE_dd, IHl. reflexivity. Qed.

  Lemma det_EE (a : A) : det (EE a).
  Proof. apply EE_idem. Qed.
  Lemma det_cq q : det (cq q : A).
  Proof. apply EE_cq. Qed.
  Lemma det_add (a b : A) : det a -> det b -> det (a + b).
  Proof. unfold det. intros. rewrite EE_add. congruence. Qed.
  Lemma det_mul (a b : A) : det a -> det b -> det (a * b).
  Proof. unfold det. intros Ha Hb. rewrite EE_det_l by auto. congruence. Qed.
  Lemma det_dd c (a : A) : det a -> det (dd c a).
  Proof. unfold det. intros H. rewrite EE_dd. congruence. Qed.
  Lemma det_dds l (a : A) : det a -> det (dds l a).
  Proof. induction l; simpl; auto. intros. apply det_dd; auto. Qed.
  Lemma det_0 : det (0 : A). Proof. apply EE_0. Qed.
  Lemma det_1 : det (1 : A). Proof. apply EE_1. Qed.
End Facts.
