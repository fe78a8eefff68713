(** Exact solutions on the period 2 pi and a concrete generated class, for the examples of C109. *)
From Coq Require Import List Arith ZArith Bool Reals String Lia Lra Permutation.
From Verif Require Import PyBase Scalars FieldFacts FDReal GridModel GridSpec GridMore ConsistSpec ConsistMain LineSpec.
Import ListNotations.
Open Scope R_scope.

(** ** the class on [n] points *)
Lemma class_exists (L kappa : R) n : (0 < n)%nat -> exists g d, init_index ["x"%string] [n] = Ok d /\
  line_class L kappa n (fun l => l) (fun l => l) g (fun _ _ _ => d) (fun _ => Ok (fun _ => kappa)).
Proof.
  intros Hn.
  destruct (@grid_init_ok RF ["x"%string] (Some [n]) (Some [L]) ltac:(repeat constructor; intros []) eq_refl eq_refl) as (g & Hg & _).
  { intros m [<-|[]]. lia. }
  exists g. eexists. split; [reflexivity|]. split; auto; try (intros; apply Permutation_refl).
  intros t v a. exists []. eexists. split; reflexivity.
Qed.

(** ** calculus *)
Lemma dplus f g x a b : derivable_pt_lim f x a -> derivable_pt_lim g x b -> derivable_pt_lim (fun y => f y + g y) x (a + b).
Proof. apply derivable_pt_lim_plus. Qed.
Lemma dmult f g x a b : derivable_pt_lim f x a -> derivable_pt_lim g x b -> derivable_pt_lim (fun y => f y * g y) x (a * g x + f x * b).
Proof. apply derivable_pt_lim_mult. Qed.
Lemma dconst c x : derivable_pt_lim (fun _ => c) x 0.
Proof. apply derivable_pt_lim_const. Qed.
Lemma dsin a x : derivable_pt_lim (fun y => sin (y + a)) x (cos (x + a)).
Proof.
  eapply dl_eq; [|apply (derivable_pt_lim_comp (fun y => y + a) sin); [|apply derivable_pt_lim_sin]].
  - rewrite Rmult_1_r. reflexivity.
  - eapply dl_eq; [|apply dplus; [apply derivable_pt_lim_id|apply dconst]]. ring.
Qed.
Lemma dexp k t : derivable_pt_lim (fun s => exp (- k * s)) t (- k * exp (- k * t)).
Proof.
  eapply dl_eq; [|apply (derivable_pt_lim_comp (fun s => - k * s) exp); [|apply derivable_pt_lim_exp]].
  - apply Rmult_comm.
  - eapply dl_eq; [|apply dmult; [apply dconst|apply derivable_pt_lim_id]]. unfold id. ring.
Qed.
Lemma dinv f x a : f x <> 0 -> derivable_pt_lim f x a -> derivable_pt_lim (fun y => / f y) x (- a * (/ f x * / f x)).
Proof.
  intros N D. pose proof (derivable_pt_lim_div (fun _ => 1) f x 0 a (dconst 1 x) D N) as H.
  eapply derivable_pt_lim_ext; [|eapply dl_eq; [|exact H]].
  - intros y. unfold div_fct, Rdiv. ring.
  - unfold Rsqr. field. exact N.
Qed.

(** ** the diffusion: a decaying wave *)
Definition heat (kappa : R) (k : nat) (t x : R) : R := exp (- kappa * t) * sin (x + INR k * (PI / 2)).
Lemma exp_le_1 k t : 0 <= k -> 0 <= t -> 0 < exp (- k * t) <= 1.
Proof.
  intros Hk Ht. split; [apply exp_pos|]. rewrite <- exp_0.
  destruct (Rle_lt_or_eq_dec (- k * t) 0 ltac:(nra)) as [Lt|Eq]; [left; apply exp_increasing; auto|rewrite Eq; lra].
Qed.
Lemma heat_solution kappa t1 : 0 <= kappa -> diffusion_solution (2 * PI) kappa 0 t1 (heat kappa).
Proof.
  intros Hk. unfold heat. split.
  - intros m k t x _ _. eapply dl_eq; [|apply dmult; [apply dconst|apply dsin]].
    rewrite S_INR. replace (x + (INR k + 1) * (PI / 2)) with (PI / 2 + (x + INR k * (PI / 2))) by field.
    rewrite <- cos_sin. ring.
  - intros k t x _. eapply dl_eq; [|apply dmult; [apply dexp|apply dconst]].
    rewrite !S_INR. replace (x + (INR k + 1 + 1) * (PI / 2)) with (x + INR k * (PI / 2) + PI) by field. rewrite neg_sin. ring.
  - intros t x _. f_equal. replace (x + 2 * PI + INR 0 * (PI / 2)) with (x + 2 * PI) by (cbn; ring).
    replace (x + INR 0 * (PI / 2)) with x by (cbn; ring). rewrite sin_plus, sin_2PI, cos_2PI. ring.
  - intros k. exists 1. intros t x [Ht _]. rewrite Rabs_mult. pose proof (exp_le_1 kappa t Hk Ht) as E.
    rewrite (Rabs_pos_eq (exp _)) by lra. pose proof (SIN_bound (x + INR k * (PI / 2))) as B.
    assert (Rabs (sin (x + INR k * (PI / 2))) <= 1) by (apply Rabs_le; lra).
    pose proof (Rabs_pos (sin (x + INR k * (PI / 2)))). nra.
Qed.

(** ** Burgers' equation: the wave of Cole and Hopf, u = - 2 kappa D_x phi / phi, phi = 2 + exp(- kappa t) sin x *)
Section Hopf.
  Variable kappa : R.
  Definition hphi (t x : R) : R := 2 + exp (- kappa * t) * sin x.
  Definition hr (t x : R) : R := / hphi t x.
  Definition hq (t x : R) : R := exp (- kappa * t) * cos x * hr t x.
  Definition hq1 (t x : R) : R := -1 + 2 * hr t x + - (1) * (hq t x * hq t x).
  Definition hopf (k : nat) (t x : R) : R :=
    let q := hq t x in let r := hr t x in let q1 := hq1 t x in
    match k with
    | 0 => -2 * kappa * q
    | 1 => -2 * kappa * q1
    | 2 => -2 * kappa * (2 * q + -6 * (r * q) + 2 * (q * (q * q)))
    | 3 => -2 * kappa * ((2 + -6 * r + 6 * (q * q)) * q1 + 6 * (r * (q * q)))
    | _ => -2 * kappa * ((6 * (r * q) + 12 * (q * q1)) * q1 + (2 + -6 * r + 6 * (q * q)) * (-2 * (r * q) + -2 * (q * q1))
                         + -6 * (r * (q * (q * q))) + 12 * (r * (q * q1)))
    end.
  Definition hopf_t (t x : R) : R := 4 * kappa ^ 2 * (hq t x * hr t x).
  Definition hopf_tt (t x : R) : R := 4 * kappa ^ 3 * (hq t x * (hr t x * (1 + -4 * hr t x))).

  Hypothesis Hk : 0 <= kappa.
  Lemma hphi_pos t x : 0 <= t -> 1 <= hphi t x.
  Proof.
    intros Ht. pose proof (exp_le_1 kappa t Hk Ht). pose proof (SIN_bound x). unfold hphi. nra.
  Qed.
  Lemma hr_x t x : 0 <= t -> derivable_pt_lim (hr t) x (- (1) * (hr t x * hq t x)).
  Proof.
    intros Ht. pose proof (hphi_pos t x Ht). eapply dl_eq; [|apply dinv; [|]].
    2: lra.
    2: { apply dplus; [apply dconst|]. apply dmult; [apply dconst|apply derivable_pt_lim_sin]. }
    unfold hq, hr. ring.
  Qed.
  Lemma hq_x t x : 0 <= t -> derivable_pt_lim (hq t) x (hq1 t x).
  Proof.
    intros Ht. pose proof (hphi_pos t x Ht) as P.
    eapply dl_eq; [|apply dmult; [apply dmult; [apply dconst|apply derivable_pt_lim_cos]|apply hr_x; auto]].
    assert (E : exp (- kappa * t) * sin x * hr t x = 1 - 2 * hr t x).
    { unfold hr. replace (exp (- kappa * t) * sin x) with (hphi t x - 2) by (unfold hphi; ring). field. lra. }
    unfold hq1. transitivity (- (exp (- kappa * t) * sin x * hr t x) - hq t x * hq t x).
    - unfold hq. ring.
    - rewrite E. ring.
  Qed.
  Lemma hr_t t x : 0 <= t -> derivable_pt_lim (fun s => hr s x) t (kappa * (hr t x * (1 - 2 * hr t x))).
  Proof.
    intros Ht. pose proof (hphi_pos t x Ht). eapply dl_eq; [|apply dinv; [|]].
    2: lra.
    2: { apply dplus; [apply dconst|]. apply dmult; [apply dexp|apply dconst]. }
    cbv beta. fold (hphi t x). unfold hr.
    transitivity (kappa * (exp (- kappa * t) * sin x) * (/ hphi t x * / hphi t x)); [ring|].
    replace (exp (- kappa * t) * sin x) with (hphi t x - 2) by (unfold hphi; ring). field. lra.
  Qed.
  Lemma hq_t t x : 0 <= t -> derivable_pt_lim (fun s => hq s x) t (-2 * kappa * (hq t x * hr t x)).
  Proof.
    intros Ht. eapply dl_eq; [|apply dmult; [apply dmult; [apply dexp|apply dconst]|apply hr_t; auto]].
    unfold hq. ring.
  Qed.
  Lemma hq1_x t x : 0 <= t -> derivable_pt_lim (hq1 t) x (-2 * (hr t x * hq t x) + -2 * (hq t x * hq1 t x)).
  Proof.
    intros Ht. unfold hq1 at 1. eapply dl_eq; [|repeat first [apply (hr_x t x Ht) | apply (hq_x t x Ht) | apply dconst | apply dplus | apply dmult]].
    cbv beta. ring.
  Qed.

  Definition tame (f : R -> R -> R) : Prop := exists M, forall t x, 0 <= t -> Rabs (f t x) <= M.
  Lemma tame_const c : tame (fun _ _ => c).
  Proof. exists (Rabs c). intros. lra. Qed.
  Lemma tame_plus f g : tame f -> tame g -> tame (fun t x => f t x + g t x).
  Proof.
    intros (M & H) (M' & H'). exists (M + M'). intros t x Ht. eapply Rle_trans; [apply Rabs_triang|].
    specialize (H t x Ht). specialize (H' t x Ht). lra.
  Qed.
  Lemma tame_mult f g : tame f -> tame g -> tame (fun t x => f t x * g t x).
  Proof.
    intros (M & H) (M' & H'). exists (M * M'). intros t x Ht. rewrite Rabs_mult. apply Rmult_le_compat; auto using Rabs_pos.
  Qed.
  Lemma tame_r : tame hr.
  Proof.
    exists 1. intros t x Ht. pose proof (hphi_pos t x Ht) as P. unfold hr. rewrite Rabs_pos_eq.
    - rewrite <- Rinv_1. apply Rinv_le_contravar; lra.
    - left. apply Rinv_0_lt_compat. lra.
  Qed.
  Lemma hq_bound t x : 0 <= t -> Rabs (hq t x) <= 1.
  Proof.
    intros Ht. pose proof (exp_le_1 kappa t Hk Ht) as E. pose proof (COS_bound x) as B. pose proof (hphi_pos t x Ht) as P.
    assert (Hr : 0 < hr t x <= 1).
    { unfold hr. split; [apply Rinv_0_lt_compat; lra|]. rewrite <- Rinv_1. apply Rinv_le_contravar; lra. }
    assert (Rabs (cos x) <= 1) by (apply Rabs_le; lra).
    unfold hq. rewrite !Rabs_mult. rewrite (Rabs_pos_eq (exp _)), (Rabs_pos_eq (hr t x)) by lra.
    pose proof (Rabs_pos (cos x)). assert (exp (- kappa * t) * Rabs (cos x) <= 1) by nra.
    assert (0 <= exp (- kappa * t) * Rabs (cos x)) by nra. nra.
  Qed.
  Lemma tame_q : tame hq.
  Proof. exists 1. apply hq_bound. Qed.
  Ltac tame := repeat first [apply tame_r | apply tame_q | apply tame_const | apply tame_plus | apply tame_mult].

  Theorem hopf_solution t1 : burgers_solution (2 * PI) kappa 0 t1 hopf hopf_t hopf_tt.
  Proof.
    split.
    - intros k t x Hm [Ht _]. destruct k as [|[|[|[|k]]]]; [| | | |lia]; unfold hopf; cbv zeta;
        (eapply dl_eq; [|repeat first [apply (hr_x t x Ht) | apply (hq_x t x Ht) | apply (hq1_x t x Ht) | apply dconst | apply dplus | apply dmult]]);
        try (unfold hq1; (cbv beta; ring)).
    - intros t x [Ht _]. unfold hopf, hopf_t. cbv zeta. eapply dl_eq; [|apply dmult; [apply dconst|apply (hq_t t x Ht)]]. (cbv beta; ring).
    - intros t x [Ht _]. unfold hopf_t, hopf_tt.
      eapply dl_eq; [|apply dmult; [apply dconst|apply dmult; [apply (hq_t t x Ht)|apply (hr_t t x Ht)]]]. (cbv beta; ring).
    - intros t x _. unfold hopf, hopf_t, hq1. cbv zeta. (cbv beta; ring).
    - intros t x _. unfold hopf, hq, hr, hphi. cbv zeta.
      rewrite sin_plus, cos_plus, sin_2PI, cos_2PI, !Rmult_1_r, !Rmult_0_r, Rminus_0_r, Rplus_0_r. reflexivity.
    - assert (T1 : tame hq1) by (unfold hq1; tame).
      assert (T : forall k, (k < 5)%nat -> tame (hopf k)).
      { intros k Hm. destruct k as [|[|[|[|[|k]]]]]; [| | | | |lia]; unfold hopf; cbv zeta;
          repeat first [apply tame_r | apply tame_q | apply T1 | apply tame_const | apply tame_plus | apply tame_mult]. }
      destruct (T O) as (M0 & H0); [lia|]. destruct (T 1%nat) as (M1 & H1); [lia|].
      destruct (T 3%nat) as (M3 & H3); [lia|]. destruct (T 4%nat) as (M4 & H4); [lia|].
      assert (Tt : tame hopf_tt) by (unfold hopf_tt; tame). destruct Tt as (Mt & Ht).
      exists (Rmax M0 (Rmax M1 (Rmax M3 (Rmax M4 Mt)))). intros t x [Hp _].
      pose proof (Rmax_l M0 (Rmax M1 (Rmax M3 (Rmax M4 Mt)))). pose proof (Rmax_r M0 (Rmax M1 (Rmax M3 (Rmax M4 Mt)))).
      pose proof (Rmax_l M1 (Rmax M3 (Rmax M4 Mt))). pose proof (Rmax_r M1 (Rmax M3 (Rmax M4 Mt))).
      pose proof (Rmax_l M3 (Rmax M4 Mt)). pose proof (Rmax_r M3 (Rmax M4 Mt)).
      pose proof (Rmax_l M4 Mt). pose proof (Rmax_r M4 Mt).
      specialize (H0 t x Hp). specialize (H1 t x Hp). specialize (H3 t x Hp). specialize (H4 t x Hp). specialize (Ht t x Hp).
      repeat split; lra.
  Qed.
  Lemma hopf_start x : Rabs (hopf O 0 x) <= 2 * kappa.
  Proof.
    unfold hopf. rewrite Rabs_mult. pose proof (hq_bound 0 x (Rle_refl 0)).
    replace (-2 * kappa) with (- (2 * kappa)) by (cbv beta; ring). rewrite Rabs_Ropp, Rabs_pos_eq by lra.
    rewrite <- (Rmult_1_r (2 * kappa)) at 2. apply Rmult_le_compat_l; lra.
  Qed.
End Hopf.
