(** A concrete algebra of random fields, used to show that the hypotheses of the theorems
    about symbolic expressions can be met and as a source of counterexamples.

    A deterministic field is the sequence of its derivatives at the origin (a Hurwitz
    series); a random field is one such sequence for each of four events, of weights
    9/50, 9/50, 8/25, 8/25; coordinate [c] acts as [lam c] times the derivative, i.e. all
    fields are waves. *)
From Coq Require Import List Ring QArith Qcanon String FunctionalExtensionality.
From Verif Require Import Reynolds.
Import ListNotations.
Close Scope Q_scope.
Open Scope Qc_scope.

Definition hs := nat -> Qc.
Definition h_tl (a : hs) : hs := fun n => a (S n).
Definition h_add (a b : hs) : hs := fun n => a n + b n.
Definition h_opp (a : hs) : hs := fun n => - a n.
Definition h_sub (a b : hs) : hs := fun n => a n - b n.
Definition h_q (q : Qc) : hs := fun n => match n with O => q | S _ => 0 end.
Fixpoint h_mul_n (n : nat) (a b : hs) : Qc :=
  match n with
  | O => a O * b O
  | S m => h_mul_n m (h_tl a) b + h_mul_n m a (h_tl b)
  end.
Definition h_mul (a b : hs) : hs := fun n => h_mul_n n a b.

Lemma h_mul_comm n : forall a b, h_mul_n n a b = h_mul_n n b a.
Proof.
  induction n; intros; simpl; [ring|]. rewrite IHn, (IHn a). ring.
Qed.
Lemma h_mul_add n : forall a b c, h_mul_n n (h_add a b) c = h_mul_n n a c + h_mul_n n b c.
Proof.
  induction n; intros; simpl; [unfold h_add; ring|].
  change (h_tl (h_add a b)) with (h_add (h_tl a) (h_tl b)). rewrite !IHn. ring.
Qed.
Lemma h_mul_zero n : forall b, h_mul_n n (fun _ => 0) b = 0.
Proof.
  induction n; intros; simpl; [ring|]. change (h_tl (fun _ => 0)) with (fun _ : nat => 0). rewrite !IHn. ring.
Qed.
Lemma h_mul_q n : forall q b, h_mul_n n (h_q q) b = q * b n.
Proof.
  induction n; intros; simpl; [ring|]. change (h_tl (h_q q)) with (fun _ : nat => 0).
  rewrite h_mul_zero, IHn. unfold h_tl. ring.
Qed.
Lemma h_mul_tl a b : h_tl (h_mul a b) = h_add (h_mul (h_tl a) b) (h_mul a (h_tl b)).
Proof. reflexivity. Qed.
Lemma h_mul_assoc n : forall a b c, h_mul_n n a (h_mul b c) = h_mul_n n (h_mul a b) c.
Proof.
  induction n; intros; simpl; [unfold h_mul; simpl; ring|].
  rewrite !h_mul_tl, h_mul_add, (h_mul_comm n a (h_add _ _)), h_mul_add.
  rewrite (h_mul_comm n (h_mul (h_tl b) c)), (h_mul_comm n (h_mul b (h_tl c))).
  rewrite !IHn. ring.
Qed.
Lemma h_mul_scal n : forall q a b, h_mul_n n (fun k => q * a k) b = q * h_mul_n n a b.
Proof.
  induction n; intros; simpl; [ring|]. change (h_tl (fun k => q * a k)) with (fun k => q * h_tl a k).
  rewrite !IHn. ring.
Qed.

(** random fields *)
Definition ev := (bool * bool)%type.
Definition rf := ev -> hs.
Definition weight (o : ev) : Qc := if snd o then Q2Qc (8 # 25) else Q2Qc (9 # 50).
Definition avg (f : ev -> Qc) : Qc :=
  weight (true, true) * f (true, true) + weight (false, true) * f (false, true)
  + weight (true, false) * f (true, false) + weight (false, false) * f (false, false).
Definition r_EE (a : rf) : rf := fun _ n => avg (fun o => a o n).
Definition r_add (a b : rf) : rf := fun o => h_add (a o) (b o).
Definition r_mul (a b : rf) : rf := fun o => h_mul (a o) (b o).
Definition r_sub (a b : rf) : rf := fun o => h_sub (a o) (b o).
Definition r_opp (a : rf) : rf := fun o => h_opp (a o).
Definition r_q (q : Qc) : rf := fun _ => h_q q.

Lemma avg_const q : avg (fun _ => q) = q.
Proof.
  unfold avg, weight; simpl.
  transitivity ((Q2Qc (8 # 25) + Q2Qc (8 # 25) + Q2Qc (9 # 50) + Q2Qc (9 # 50)) * q); [ring|].
  replace (Q2Qc (8 # 25) + Q2Qc (8 # 25) + Q2Qc (9 # 50) + Q2Qc (9 # 50)) with 1 by (apply Qc_is_canon; reflexivity).
  ring.
Qed.

Lemma r_th : ring_theory (r_q 0) (r_q 1) r_add r_mul r_sub r_opp (@eq rf).
Proof.
  constructor; intros; extensionality o; extensionality n;
    unfold r_add, r_mul, r_sub, r_opp, r_q, h_add, h_sub, h_opp, h_mul.
  - destruct n; simpl; ring.
  - ring.
  - ring.
  - rewrite h_mul_q. ring.
  - apply h_mul_comm.
  - apply h_mul_assoc.
  - apply (h_mul_add n).
  - ring.
  - destruct n; simpl; ring.
Qed.

Definition r_dd (lam : string -> Qc) (c : string) (a : rf) : rf := fun o n => lam c * h_tl (a o) n.

Lemma r_pull a b : r_EE (r_mul (r_EE a) b) = r_mul (r_EE a) (r_EE b).
Proof.
  extensionality o; extensionality n. unfold r_mul, h_mul, r_EE at 1 3.
  set (m := r_EE a o). assert (Hm : forall o', r_EE a o' = m) by reflexivity.
  assert (G : forall n m, avg (fun o0 => h_mul_n n m (b o0)) = h_mul_n n m (fun n0 => avg (fun o0 => b o0 n0))).
  { clear. intros n m. rewrite (h_mul_comm n m).
    transitivity (avg (fun o0 => h_mul_n n (b o0) m)).
    { unfold avg. rewrite !(h_mul_comm n m). reflexivity. }
    unfold avg. symmetry.
    rewrite (h_mul_add n (fun n0 => weight (true, true) * b (true, true) n0 + weight (false, true) * b (false, true) n0
        + weight (true, false) * b (true, false) n0) (fun n0 => weight (false, false) * b (false, false) n0)).
    rewrite (h_mul_add n (fun n0 => weight (true, true) * b (true, true) n0 + weight (false, true) * b (false, true) n0)
        (fun n0 => weight (true, false) * b (true, false) n0)).
    rewrite (h_mul_add n (fun n0 => weight (true, true) * b (true, true) n0) (fun n0 => weight (false, true) * b (false, true) n0)).
    rewrite !h_mul_scal. reflexivity. }
  apply G.
Qed.

Definition wave (lam : string -> Qc) : RAlg.
Proof.
  refine (mkRAlg rf (r_q 0) (r_q 1) r_add r_mul r_sub r_opp r_th r_q eq_refl _ _ (r_dd lam) _ _ _ _ r_EE _ r_pull _ _).
  - intros. extensionality o; extensionality n. unfold r_q, r_add, h_add, h_q. destruct n; [reflexivity|ring].
  - intros. extensionality o; extensionality n. unfold r_q, r_mul, h_mul. rewrite h_mul_q. destruct n; simpl; ring.
  - intros. extensionality o; extensionality n. unfold r_dd, r_add, h_add, h_tl. ring.
  - intros. extensionality o; extensionality n. unfold r_dd, r_mul, r_add. rewrite h_mul_tl.
    unfold h_add, h_mul. cbv beta.
    rewrite (h_mul_scal n (lam c) (h_tl (a o))), (h_mul_comm n (a o) (fun n0 => lam c * h_tl (b o) n0)),
      (h_mul_scal n (lam c) (h_tl (b o))), (h_mul_comm n (a o)). ring.
  - intros. extensionality o; extensionality n. unfold r_dd, r_q, h_tl. destruct n; simpl; ring.
  - intros. extensionality o; extensionality n. unfold r_dd, h_tl. ring.
  - intros. extensionality o; extensionality n. unfold r_EE, r_add, h_add, avg. ring.
  - intros. extensionality o; extensionality n. unfold r_EE, r_q. apply avg_const.
  - intros. extensionality o; extensionality n. unfold r_EE, r_dd, h_tl, avg. ring.
Defined.

(** cosine and sine *)
Fixpoint cs (n : nat) : Qc * Qc :=
  match n with O => (1, 0) | S m => let '(a, b) := cs m in (- b, a) end.
Definition h_cos : hs := fun n => fst (cs n).
Definition h_sin : hs := fun n => snd (cs n).
Lemma tl_cos : h_tl h_cos = h_opp h_sin.
Proof. extensionality n. unfold h_tl, h_cos, h_opp, h_sin. simpl. destruct (cs n); reflexivity. Qed.
Lemma tl_sin : h_tl h_sin = h_cos.
Proof. extensionality n. unfold h_tl, h_cos, h_opp, h_sin. simpl. destruct (cs n); reflexivity. Qed.

Lemma h_mul_opp n : forall a b, h_mul_n n (h_opp a) b = - h_mul_n n a b.
Proof.
  induction n; intros; simpl; [unfold h_opp; ring|]. change (h_tl (h_opp a)) with (h_opp (h_tl a)). rewrite !IHn. ring.
Qed.

Lemma cos2_sin2 : h_add (h_mul h_cos h_cos) (h_mul h_sin h_sin) = h_q 1.
Proof.
  extensionality n. unfold h_add, h_mul. destruct n.
  - simpl. apply Qc_is_canon; reflexivity.
  - simpl. rewrite tl_cos, tl_sin, h_mul_opp, (h_mul_comm n h_cos (h_opp _)), h_mul_opp, (h_mul_comm n h_sin h_cos).
    ring.
Qed.

(** a centred random field of unit variance: +-(5/3)cos, +-(5/4)sin *)
Definition eps_wave : rf := fun o n =>
  (if fst o then 1 else - (1)) * (if snd o then Q2Qc (5 # 4) * h_sin n else Q2Qc (5 # 3) * h_cos n).

Lemma eps_centred : r_EE eps_wave = r_q 0.
Proof.
  extensionality o; extensionality n. unfold r_EE, avg, eps_wave, weight, r_q, h_q; simpl. destruct n; ring.
Qed.

Lemma avg_quad (p q : hs) n :
  avg (fun o => h_mul_n n (fun k => (if fst o then 1 else - (1)) * (if snd o then Q2Qc (5 # 4) * p k else Q2Qc (5 # 3) * q k))
                          (fun k => (if fst o then 1 else - (1)) * (if snd o then Q2Qc (5 # 4) * p k else Q2Qc (5 # 3) * q k)))
  = h_mul_n n p p + h_mul_n n q q.
Proof.
  unfold avg, weight; simpl.
  assert (G : forall s c r, h_mul_n n (fun k => s * (c * r k)) (fun k => s * (c * r k)) = s * s * (c * c) * h_mul_n n r r).
  { intros. rewrite h_mul_scal, (h_mul_comm n (fun k => c * r k)), h_mul_scal, h_mul_scal,
      (h_mul_comm n r), h_mul_scal. ring. }
  rewrite !G.
  transitivity ((Q2Qc (8 # 25) + Q2Qc (8 # 25)) * (Q2Qc (5 # 4) * Q2Qc (5 # 4)) * h_mul_n n p p
                + (Q2Qc (9 # 50) + Q2Qc (9 # 50)) * (Q2Qc (5 # 3) * Q2Qc (5 # 3)) * h_mul_n n q q); [ring|].
  replace ((Q2Qc (8 # 25) + Q2Qc (8 # 25)) * (Q2Qc (5 # 4) * Q2Qc (5 # 4))) with 1 by (apply Qc_is_canon; reflexivity).
  replace ((Q2Qc (9 # 50) + Q2Qc (9 # 50)) * (Q2Qc (5 # 3) * Q2Qc (5 # 3))) with 1 by (apply Qc_is_canon; reflexivity).
  ring.
Qed.

Lemma eps_normalised : r_EE (r_mul eps_wave eps_wave) = r_q 1.
Proof.
  extensionality o; extensionality n. unfold r_EE, r_mul, h_mul, eps_wave.
  rewrite (avg_quad h_sin h_cos). change (h_q 1 n) with (r_q 1 o n).
  unfold r_q. rewrite <- cos2_sin2. unfold h_add, h_mul. ring.
Qed.
