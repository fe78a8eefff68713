(** The local errors of the explicit schemes. *)
From Coq Require Import List Arith Reals Lra Lia FunctionalExtensionality.
From Verif Require Import PyBase Scalars SchemesModel SchemesSpec ForecastModel FDReal OrderSpec OrderProofs.
Import ListNotations.
Open Scope R_scope.

Ltac taysimp := cbn [tay fact Nat.add Nat.mul pow]; simpl INR.

Lemma add_sub_l (x z : R) : x + z - x = z.
Proof. ring. Qed.

Section Local.
  Context {I : Type}.
  Notation A := (I -> R).
  Variables (f : R -> A -> A) (a b : R) (y : R -> A).
  Variables (d : nat -> R -> A) (M : R) (n : nat).
  Hypothesis D0 : forall s, d 0%nat s = y s.
  Hypothesis DD : forall k s i, (k < n)%nat -> a < s < b -> derivable_pt_lim (fun r => d k r i) s (d (S k) s i).
  Hypothesis DM : forall k s, (1 <= k <= n)%nat -> a < s < b -> @within I (d k s) M.
  Hypothesis SOL : @solves I f a b y.

  Lemma mid t h c : a < t -> t + h < b -> 0 < h -> 0 <= c <= 1 -> a < t + c * h < b.
  Proof.
    intros Ht Hb Hp Hc. assert (0 <= c * h) by (apply Rmult_le_pos; lra).
    assert (c * h <= 1 * h) by (apply Rmult_le_compat_r; lra). lra.
  Qed.
  Lemma trend_d1 s : (1 <= n)%nat -> a < s < b -> f s (y s) = d 1%nat s.
  Proof.
    intros Hn Hs. extensionality i. apply (uniqueness_limite (fun r => y r i) s).
    - apply SOL. exact Hs.
    - pose proof (DD 0%nat s i ltac:(lia) Hs) as H.
      replace (fun r => y r i) with (fun r => d 0%nat r i); [exact H|]. extensionality r. rewrite D0. reflexivity.
  Qed.
  Lemma taylor_of k m c : 0 <= c <= 1 -> (1 <= k + m)%nat -> (k + m <= n)%nat ->
    big a b m (fun t h i => d k (t + c * h) i - tay m (fun j s => d (k + j)%nat s i) t (c * h)).
  Proof.
    intros Hc H1 Hn. apply (big_taylor a b m k d M c Hc H1).
    - intros j s i Hj Hs. apply DD; [lia|exact Hs].
    - intros j s i Hj Hs. apply DM; [lia|exact Hs].
  Qed.
  Lemma big_d k : (1 <= k <= n)%nat -> big a b 0 (fun t _ => d k t).
  Proof. intros Hk. apply (big_bounded a b M). intros t h i Ht Hb Hp. apply DM; [lia|lra]. Qed.

  Lemma euler_local : (2 <= n)%nat -> big a b 2 (fun t h i => euler_r f t (y t) h i - y (t + h) i).
  Proof.
    intros Hn. eapply big_eq; [|apply (big_scal a b 2 (-1)), (taylor_of 0 2 1); [lra|lia|lia]].
    intros t h i Ht Hb Hp. cbv beta. unfold euler_r. rewrite trend_d1 by (lia || lra).
    rewrite <- !D0. taysimp. rewrite Rmult_1_l. field.
  Qed.

  Definition e2 t h : A := fun i => y t i + h * / 2 * f t (y t) i - y (t + / 2 * h) i.
  Lemma e2_big : (2 <= n)%nat -> big a b 2 e2.
  Proof.
    intros Hn. eapply big_eq; [|apply (big_scal a b 2 (-1)), (taylor_of 0 2 (/ 2)); [lra|lia|lia]].
    intros t h i Ht Hb Hp. cbv beta. unfold e2. rewrite trend_d1 by (lia || lra).
    rewrite <- !D0. taysimp. field.
  Qed.

  Lemma rk2_local : (3 <= n)%nat -> @lipschitz_near I f a b y ->
    big a b 3 (fun t h i => rk2_r f t (y t) h i - y (t + h) i).
  Proof.
    intros Hn (r & L & Hr & HL).
    assert (Q : big a b 2 (fun t h i => f (t + / 2 * h) (fun j => y (t + / 2 * h) j + e2 t h j) i - f (t + / 2 * h) (y (t + / 2 * h)) i)).
    { apply (big_lipschitz a b 2 (fun s e i => f s (fun j => y s j + e j) i - f s (y s) i) r L (/ 2)); [lra|exact Hr|lia| |].
      - intros s e rho Hs Hrho He. apply (HL s (fun j => y s j + e j) (y s) rho Hs).
        + intros i. change (Rabs (y s i + e i - y s i) <= r). rewrite add_sub_l. specialize (He i). lra.
        + intros i. change (Rabs (y s i - y s i) <= r). rewrite Rminus_diag_eq by reflexivity. rewrite Rabs_R0. lra.
        + intros i. change (Rabs (y s i + e i - y s i) <= rho). rewrite add_sub_l. apply He.
      - apply e2_big. lia. }
    eapply big_eq; [|apply big_add; [|apply big_add; [|apply big_h, Q]]].
    2:{ apply big_h, (taylor_of 1 2 (/ 2)); [lra|lia|lia]. }
    2:{ apply (big_scal a b 3 (-1)), (taylor_of 0 3 1); [lra|lia|lia]. }
    intros t h i Ht Hb Hp. cbv beta. unfold rk2_r.
    pose proof (mid t h (/ 2) Ht Hb Hp ltac:(lra)) as Hm.
    replace (fun i0 => y t i0 + h * / 2 * f t (y t) i0) with (fun j => y (t + / 2 * h) j + e2 t h j).
    2:{ extensionality j. unfold e2. ring. }
    rewrite (trend_d1 (t + / 2 * h)) by (lia || lra). rewrite <- !D0. taysimp. rewrite Rmult_1_l. field.
  Qed.

  Section Rk4.
    Variables (J : R -> A -> A) (r L : R).
    Hypothesis Hr : 0 < r.
    Hypothesis Jadd : forall s u v, J s (fun i => u i + v i) = fun i => J s u i + J s v i.
    Hypothesis Jscal : forall s c u, J s (fun i => c * u i) = fun i => c * J s u i.
    Hypothesis Jb : forall s e rho, a < s < b -> @within I e rho -> @within I (J s e) (L * rho).
    Hypothesis Jl : forall s s' e rho, a < s < b -> a < s' < b -> @within I e rho ->
      forall i, Rabs (J s e i - J s' e i) <= L * Rabs (s - s') * rho.
    Hypothesis JQ : forall s e rho, a < s < b -> rho <= r -> @within I e rho ->
      @within I (fun i => f s (fun j => y s j + e j) i - f s (y s) i - J s e i) (L * (rho * rho)).
    Hypothesis Hn : (5 <= n)%nat.

    Notation m t h := (t + / 2 * h).
    Definition k2 t h : A := f (m t h) (fun i => y (m t h) i + e2 t h i).
    Definition dl2 t h : A := fun i => k2 t h i - d 1%nat (m t h) i.
    Definition e3 t h : A := fun i => y t i + h * / 2 * k2 t h i - y (m t h) i.
    Definition k3 t h : A := f (m t h) (fun i => y (m t h) i + e3 t h i).
    Definition dl3 t h : A := fun i => k3 t h i - d 1%nat (m t h) i.
    Definition e4 t h : A := fun i => y t i + h * k3 t h i - y (t + 1 * h) i.
    Definition k4 t h : A := f (t + 1 * h) (fun i => y (t + 1 * h) i + e4 t h i).
    Definition dl4 t h : A := fun i => k4 t h i - d 1%nat (t + 1 * h) i.

    (** k - y' = J e + O(e^2) *)
    Lemma stage c g p : 0 <= c <= 1 -> (1 <= p)%nat -> big a b p g ->
      big a b (2 * p) (fun t h i => f (t + c * h) (fun j => y (t + c * h) j + g t h j) i - d 1%nat (t + c * h) i - J (t + c * h) (g t h) i).
    Proof.
      intros Hc Hp Hg. eapply big_eq; [|apply (big_quadratic a b p (fun s e i => f s (fun j => y s j + e j) i - f s (y s) i - J s e i) r L c g Hc Hr Hp JQ Hg)].
      intros t h i Ht Hb Hh. cbv beta. rewrite (trend_d1 (t + c * h)); [reflexivity|lia|apply mid; assumption].
    Qed.

    Lemma J2 : big a b 2 (fun t h => J (m t h) (e2 t h)).
    Proof. apply (big_J a b 2 J L); [lra|exact Jb|apply e2_big; lia]. Qed.
    Lemma dl2_J : big a b 4 (fun t h i => dl2 t h i - J (m t h) (e2 t h) i).
    Proof. apply (stage (/ 2) e2 2); [lra|lia|apply e2_big; lia]. Qed.
    Lemma dl2_big : big a b 2 dl2.
    Proof.
      eapply big_eq; [|apply (big_add a b 2); [exact (big_weaken a b 4 2 _ ltac:(lia) dl2_J)|exact J2]].
      intros. cbv beta. ring.
    Qed.
    (** e2 = - h^2/8 y'' - h^3/48 y''' + O(h^4) *)
    Lemma e2_exp : big a b 4 (fun t h i => e2 t h i + h * (h * (/ 8 * d 2%nat t i)) + h * (h * (h * (/ 48 * d 3%nat t i)))).
    Proof.
      eapply big_eq; [|apply (big_scal a b 4 (-1)), (taylor_of 0 4 (/ 2)); [lra|lia|lia]].
      intros t h i Ht Hb Hp. cbv beta. unfold e2. rewrite trend_d1 by (lia || lra). rewrite <- !D0. taysimp. field.
    Qed.
    (** e3 = e2 + h^2/4 y'' + h^3/16 y''' + h/2 dl2 + O(h^4) *)
    Lemma e3_exp : big a b 4 (fun t h i => e3 t h i - e2 t h i - h * (h * (/ 4 * d 2%nat t i)) - h * (h * (h * (/ 16 * d 3%nat t i))) - h * (/ 2 * dl2 t h i)).
    Proof.
      eapply big_eq; [|apply big_h, (big_scal a b 3 (/ 2)), (taylor_of 1 3 (/ 2)); [lra|lia|lia]].
      intros t h i Ht Hb Hp. cbv beta. unfold e3, dl2, e2. rewrite (trend_d1 t) by (lia || lra). taysimp. field.
    Qed.
    Lemma hd2 k : (1 <= k <= n)%nat -> big a b 2 (fun t h i => h * (h * (/ 4 * d k t i))).
    Proof. intros Hk. apply big_h, big_h, big_scal, big_d. exact Hk. Qed.
    Lemma hd3 c k : (1 <= k <= n)%nat -> big a b 3 (fun t h i => h * (h * (h * (c * d k t i)))).
    Proof. intros Hk. apply big_h, big_h, big_h, big_scal, big_d. exact Hk. Qed.
    Lemma e3_big : big a b 2 e3.
    Proof.
      eapply big_eq; [|apply (big_add a b 2); [exact (big_weaken a b 4 2 _ ltac:(lia) e3_exp)|
        apply (big_add a b 2); [apply e2_big; lia|apply (big_add a b 2); [apply (hd2 2); lia|
        apply (big_add a b 2); [exact (big_weaken a b 3 2 _ ltac:(lia) (hd3 (/ 16) 3 ltac:(lia)))|
          exact (big_weaken a b 3 2 _ ltac:(lia) (big_h a b 2 _ (big_scal a b 2 (/ 2) _ dl2_big)))]]]]].
      intros. cbv beta. ring.
    Qed.
    (** e2 + e3 = O(h^3) *)
    Lemma e23_big : big a b 3 (fun t h i => e2 t h i + e3 t h i).
    Proof.
      eapply big_eq; [|apply (big_add a b 3); [exact (big_weaken a b 4 3 _ ltac:(lia) e3_exp)|
        apply (big_add a b 3); [exact (big_weaken a b 4 3 _ ltac:(lia) (big_scal a b 4 2 _ e2_exp))|
        apply (big_add a b 3); [apply (hd3 (/ 16 - / 24) 3); lia|
          exact (big_h a b 2 _ (big_scal a b 2 (/ 2) _ dl2_big))]]]].
      intros. cbv beta. field.
    Qed.
    Lemma dl3_J : big a b 4 (fun t h i => dl3 t h i - J (m t h) (e3 t h) i).
    Proof. apply (stage (/ 2) e3 2); [lra|lia|apply e3_big]. Qed.
    Lemma dl3_big : big a b 2 dl3.
    Proof.
      eapply big_eq; [|apply (big_add a b 2); [exact (big_weaken a b 4 2 _ ltac:(lia) dl3_J)|
        apply (big_J a b 2 J L (/ 2) e3); [lra|exact Jb|exact e3_big]]].
      intros. cbv beta. ring.
    Qed.
    Lemma dl23 : big a b 3 (fun t h i => dl2 t h i + dl3 t h i).
    Proof.
      eapply big_eq; [|apply (big_add a b 3); [exact (big_weaken a b 4 3 _ ltac:(lia) (big_add a b 4 _ _ dl2_J dl3_J))|
        apply (big_J a b 3 J L (/ 2) (fun t h i => e2 t h i + e3 t h i)); [lra|exact Jb|exact e23_big]]].
      intros t h i Ht Hb Hp. cbv beta. rewrite Jadd. ring.
    Qed.
    (** e4 = - h^3/24 y''' + h dl3 + O(h^4) *)
    Lemma e4_exp : big a b 4 (fun t h i => e4 t h i + h * (h * (h * (/ 24 * d 3%nat t i))) - h * dl3 t h i).
    Proof.
      eapply big_eq; [|apply (big_add a b 4); [apply big_h, (taylor_of 1 3 (/ 2)); [lra|lia|lia]|
        apply (big_scal a b 4 (-1)), (taylor_of 0 4 1); [lra|lia|lia]]].
      intros t h i Ht Hb Hp. cbv beta. unfold e4, dl3. rewrite <- !D0. taysimp. field.
    Qed.
    Lemma e4_big : big a b 3 e4.
    Proof.
      eapply big_eq; [|apply (big_add a b 3); [exact (big_weaken a b 4 3 _ ltac:(lia) e4_exp)|
        apply (big_add a b 3); [apply (hd3 (- / 24) 3); lia|exact (big_h a b 2 _ dl3_big)]]].
      intros. cbv beta. ring.
    Qed.
    (** dl4 = J(middle) e4 + O(h^4) *)
    Lemma dl4_J : big a b 4 (fun t h i => dl4 t h i - J (m t h) (e4 t h) i).
    Proof.
      eapply big_eq; [|apply (big_add a b 4); [exact (big_weaken a b 6 4 _ ltac:(lia) (stage 1 e4 3 ltac:(lra) ltac:(lia) e4_big))|
        apply (big_J2 a b 3 J L 1 (/ 2) e4); [lra|lra|exact Jl|exact e4_big]]].
      intros. cbv beta. unfold dl4, k4. ring.
    Qed.
    (** 2 e2 + 2 e3 + e4 = O(h^4) *)
    Lemma e234 : big a b 4 (fun t h i => 2 * e2 t h i + (2 * e3 t h i + e4 t h i)).
    Proof.
      eapply big_eq; [|apply (big_add a b 4); [exact (big_scal a b 4 4 _ e2_exp)|
        apply (big_add a b 4); [exact (big_scal a b 4 2 _ e3_exp)|
        apply (big_add a b 4); [exact e4_exp|exact (big_h a b 3 _ dl23)]]]].
      intros. cbv beta. field.
    Qed.
    Lemma dl234 : big a b 4 (fun t h i => 2 * dl2 t h i + 2 * dl3 t h i + dl4 t h i).
    Proof.
      eapply big_eq; [|apply (big_add a b 4); [exact (big_scal a b 4 2 _ dl2_J)|
        apply (big_add a b 4); [exact (big_scal a b 4 2 _ dl3_J)|
        apply (big_add a b 4); [exact dl4_J|
          apply (big_J a b 4 J L (/ 2) (fun t h i => 2 * e2 t h i + (2 * e3 t h i + e4 t h i))); [lra|exact Jb|exact e234]]]]].
      intros t h i Ht Hb Hp. cbv beta.
      rewrite (Jadd _ (fun i => 2 * e2 t h i) (fun i => 2 * e3 t h i + e4 t h i)), (Jadd _ (fun i => 2 * e3 t h i) (e4 t h)), !Jscal. ring.
    Qed.
    (** Simpson's rule *)
    Lemma simpson : big a b 5 (fun t h i => y t i + h / 6 * (d 1%nat t i + 4 * d 1%nat (m t h) i + d 1%nat (t + 1 * h) i) - y (t + 1 * h) i).
    Proof.
      eapply big_eq; [|apply (big_add a b 5); [apply big_h, (big_scal a b 4 (2 / 3)), (taylor_of 1 4 (/ 2)); [lra|lia|lia]|
        apply (big_add a b 5); [apply big_h, (big_scal a b 4 (/ 6)), (taylor_of 1 4 1); [lra|lia|lia]|
          apply (big_scal a b 5 (-1)), (taylor_of 0 5 1); [lra|lia|lia]]]].
      intros t h i Ht Hb Hp. cbv beta. rewrite <- !D0. taysimp. field.
    Qed.
    Lemma rk4_local : big a b 5 (fun t h i => rk4_r f t (y t) h i - y (t + h) i).
    Proof.
      eapply big_eq; [|apply (big_add a b 5); [exact simpson|exact (big_h a b 4 _ (big_scal a b 4 (/ 6) _ dl234))]].
      intros t h i Ht Hb Hp. cbv beta.
      assert (E2 : f (t + h * / 2) (fun i0 => y t i0 + h * / 2 * f t (y t) i0) = k2 t h).
      { unfold k2. replace (t + h * / 2) with (m t h) by ring. f_equal. extensionality j. unfold e2. ring. }
      assert (E3 : f (t + h * / 2) (fun i0 => y t i0 + h * / 2 * k2 t h i0) = k3 t h).
      { unfold k3. replace (t + h * / 2) with (m t h) by ring. f_equal. extensionality j. unfold e3. ring. }
      assert (E4 : f (t + h) (fun i0 => y t i0 + h * k3 t h i0) = k4 t h).
      { unfold k4. replace (t + 1 * h) with (t + h) by ring. f_equal. extensionality j. unfold e4. rewrite Rmult_1_l. ring. }
      unfold rk4_r. rewrite E2, E3, E4, (trend_d1 t) by (lia || lra).
      unfold dl2, dl3, dl4. rewrite Rmult_1_l. field.
    Qed.
  End Rk4.
End Local.

Section Order.
  Context {I : Type}.
  Notation A := (I -> R).
  Variables (f : R -> A -> A) (a b : R) (y : R -> A).

  Lemma order_of s p : big a b (S p) (fun t h i => step_r f s t (y t) h i - y (t + h) i) -> @step_order I s f a b y p.
  Proof.
    intros H. apply big_within in H. destruct H as (C & h0 & HC & Hh & H). exists C, h0. split; [exact Hh|].
    intros t h Ht Hb Hp. exists (step_r f s t (y t) h). split; [apply step_is|]. exact (H t h Ht Hb Hp).
  Qed.
  Lemma euler_order : @smooth I 2 a b y -> @solves I f a b y -> @step_order I SEuler f a b y 1.
  Proof. intros (d & M & D0 & DD & DM) S. apply order_of. exact (euler_local f a b y d M 2 D0 DD DM S (le_n _)). Qed.
  Lemma rk2_order : @smooth I 3 a b y -> @solves I f a b y -> @lipschitz_near I f a b y -> @step_order I SRk2 f a b y 2.
  Proof. intros (d & M & D0 & DD & DM) S L. apply order_of. exact (rk2_local f a b y d M 3 D0 DD DM S (le_n _) L). Qed.
  Lemma rk4_order : @smooth I 5 a b y -> @solves I f a b y -> @differentiable_near I f a b y -> @step_order I SRk4 f a b y 4.
  Proof.
    intros (d & M & D0 & DD & DM) S (J & r & L & Hr & Jlin & Jb & Jl & JQ). apply order_of.
    apply (rk4_local f a b y d M 5 D0 DD DM S J r L Hr).
    - intros s u v. exact (proj1 (Jlin s) u v).
    - intros s c u. exact (proj2 (Jlin s) c u).
    - exact Jb.
    - intros s s' e rho Hs Hs' He i. exact (Jl s s' e rho Hs Hs' He i).
    - intros s e rho Hs Hrho He. exact (JQ s e rho Hs Hrho He).
    - lia.
  Qed.
End Order.
