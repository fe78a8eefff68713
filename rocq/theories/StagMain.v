(** The staggered stencils of sympy, and what becomes of them on the regular grid. *)
From Coq Require Import List Arith ZArith QArith Qcanon Bool Lia Field Permutation.
From Verif Require Import PyBase PyBaseFacts Scalars FieldFacts FornbergModel FornbergProofs FDSpec FDProofs
  StagModel StagSpec StagProofs.
Import ListNotations.
Close Scope Qc_scope. Close Scope Q_scope. Open Scope nat_scope.
Open Scope py_scope.

Section Main.
  Context {K : Fld}.
  Open Scope fld_scope.
  Add Field Kf : (f_th K).

  Definition halves (n : Z) : Qc := Q2Qc (n # 2).
  Definition compact (o : nat) (h : K) : list (Qc * K) :=
    map (fun j => (halves (2 * Z.of_nat j - Z.of_nat o), sgn (o - j) * fnat (binom o j) / fpow h o)) (seq 0 (S o)).
  Lemma integer_halves n : integer n = halves (2 * n).
  Proof. unfold integer, halves. apply Qc_is_canon. cbn [this Q2Qc]. rewrite !Qred_correct. unfold Qeq. cbn [Qnum Qden]. lia. Qed.
  Lemma raw_points_halves o : raw_points o = map (fun j => halves (2 * Z.of_nat j - Z.of_nat o)) (seq 0 (S o)).
  Proof.
    unfold raw_points. destruct (Nat.Even_or_Odd o) as [[p ->]|[p ->]].
    - assert (E : Nat.eqb ((2 * p) mod 2) 0 = true).
      { apply Nat.eqb_eq. rewrite Nat.mul_comm. apply Nat.mod_mul. lia. }
      rewrite E. pose proof (points_even p) as P. unfold fd_points in P.
      assert (E1 : Nat.eqb ((2 * p) mod 2) 1 = false) by (apply Nat.eqb_eq in E; rewrite E; reflexivity).
      rewrite E1 in P. rewrite P, map_map. apply map_ext. intros j. rewrite integer_halves. f_equal. lia.
    - assert (E : Nat.eqb ((2 * p + 1) mod 2) 0 = false).
      { apply Nat.eqb_neq. rewrite Nat.add_comm, Nat.mul_comm, Nat.mod_add by lia. discriminate. }
      rewrite E. reflexivity.
  Qed.
  Lemma fq_halves n : @fq K (halves n) = fz n / (1 + 1).
  Proof. unfold halves. rewrite fq_Q2Qc. f_equal. change (@fz K 2) with (@fnat K 2). cbn. ring. Qed.
  Lemma raw_compact o (xi h : K) : h <> 0 -> raw_stencil o xi h = Some (compact o h).
  Proof.
    intros Hh. unfold raw_stencil, compact. rewrite raw_points_halves, map_map.
    rewrite (weights_equi K xi (- (fnat o / (1 + 1)) * h) h Hh o).
    - rewrite combine_map. reflexivity.
    - apply map_ext. intros j. rewrite fq_halves, fz_sub, fz_mul, !fz_nat. change (@fz K 2) with (@fnat K 2). cbn [fnat].
      field. apply f2_neq0.
  Qed.

  Variables (x dx other : nat -> K) (U : nat -> list K -> K) (un : nat -> K -> K).
  Lemma value_points fn u disp (l : list (Qc * K)) :
    value fn un (of_points u disp l) = fold_right (fun kw acc => snd kw * fn (u, disp (Rat (fst kw))) + acc) 0 l.
  Proof. induction l as [|[k w] l IH]; [reflexivity|]. cbn. rewrite <- IH. reflexivity. Qed.
  Lemma fns_points u disp (l : list (Qc * K)) a : In a (fns (of_points u disp l)) -> exists q, a = (u, disp (Rat q)).
  Proof. induction l as [|[k w] l IH]; [intros []|]. cbn. intros [<-|H]; [exists k; reflexivity|auto]. Qed.

  Variables (u : nat) (before after : list coeff).
  Hypothesis B : Forall on_grid before.
  Hypothesis A : Forall on_grid after.
  Notation i := (length before).
  Notation disp := (fun c => before ++ c :: after).
  (** the function along the coordinate of the derivative *)
  Definition along (v : K) : K := U u (point x dx other 0 before ++ v :: point x dx other (S i) after).

  Lemma point_app l : forall l' n, point x dx other n (l ++ l') = point x dx other n l ++ point x dx other (n + length l) l'.
  Proof.
    induction l as [|c l IH]; intros l' n; [cbn; rewrite Nat.add_0_r; reflexivity|]. cbn. rewrite IH. do 3 f_equal. lia.
  Qed.
  Lemma stretched_app l : forall l' n, stretched x dx other n (l ++ l') = stretched x dx other n l ++ stretched x dx other (n + length l) l'.
  Proof.
    induction l as [|[q|k] l IH]; intros l' n; [cbn; rewrite Nat.add_0_r; reflexivity| |]; cbn; rewrite IH; do 3 f_equal; lia.
  Qed.
  Lemma stretched_grid l : Forall on_grid l -> forall n, stretched x dx other n l = point x dx other n l.
  Proof.
    induction 1 as [|c l C _ IH]; intros n; [reflexivity|]. destruct c as [q|]; [|contradiction]. cbn [on_grid] in C. cbn [stretched point number]. rewrite IH, C.
    f_equal. rewrite fz_1. field. apply f1_neq0.
  Qed.
  Lemma shared_grid l : Forall on_grid l -> @shared K l = 1.
  Proof.
    induction 1 as [|c l C _ IH]; [reflexivity|]. destruct c as [q|]; [|contradiction]. cbn [on_grid] in C. cbn [shared]. rewrite IH, C, fz_1.
    field. apply f1_neq0.
  Qed.
  Lemma shared_app l l' : @shared K (l ++ l') = shared l * shared l'.
  Proof.
    induction l as [|[q|k] l IH]; cbn [shared app]; [ring| |exact IH]. rewrite IH. pose proof (@fz_pos_neq0 K (Qden (this q))). field. auto.
  Qed.
  Lemma here_along q : here x dx other U (u, disp (Rat q)) = along (x i + fq q * dx i).
  Proof. unfold here, along. cbn [fst snd]. rewrite point_app. reflexivity. Qed.
  Lemma moved_along q : moved x dx other U (u, disp (Rat q)) = along (x i + fz (Qnum (this q)) * dx i) / fz (Zpos (Qden (this q))).
  Proof.
    unfold moved, along. cbn [fst snd]. rewrite shared_app, (shared_grid _ B). cbn [shared]. rewrite (shared_grid _ A).
    rewrite stretched_app, (stretched_grid _ B). cbn [stretched]. rewrite (stretched_grid _ A).
    pose proof (@fz_pos_neq0 K (Qden (this q))). cbn [Nat.add]. field. auto.
  Qed.

  Lemma halves_even n : this (halves (2 * n)) = (n # 1)%Q.
  Proof. rewrite <- integer_halves. apply this_integer. Qed.
  Lemma halves_odd n : this (halves (2 * n + 1)) = ((2 * n + 1) # 2)%Q.
  Proof.
    assert (G : (Z.gcd (2 * n + 1) 2 = 1)%Z).
    { rewrite Z.gcd_comm. replace (2 * n + 1)%Z with (1 + n * 2)%Z by lia. rewrite Z.gcd_add_mult_diag_r. reflexivity. }
    unfold halves, Q2Qc. cbn [this]. unfold Qred. destruct (Z.ggcd (2 * n + 1) 2) as [g [aa bb]] eqn:E.
    pose proof (Z.ggcd_correct_divisors (2 * n + 1) 2) as D. pose proof (Z.ggcd_gcd (2 * n + 1) 2) as G'. rewrite E in D, G'. cbn [fst snd] in *.
    rewrite G in G'. subst g. destruct D as [D1 D2]. replace aa with (2 * n + 1)%Z by lia. replace bb with 2%Z by lia. reflexivity.
  Qed.

  Lemma rational_disp q : Forall rational (disp (Rat q)).
  Proof.
    apply Forall_app. split; [apply (grid_rational _ B)|]. constructor; [exact I|]. apply (grid_rational _ A).
  Qed.
  Variable ord : list fatom -> list fatom.
  Hypothesis Hord : forall l, Permutation (ord l) l.
  Variable o : nat.
  Hypothesis Hh : dx i <> 0.

  Lemma sympy_ok : sympy_finite_difference u disp o (x i) (dx i) = Ok (of_points u disp (compact o (dx i))).
  Proof. unfold sympy_finite_difference. rewrite (raw_compact o _ _ Hh). reflexivity. Qed.
  Lemma fold_map {T} (g : T -> Qc * K) (w : Qc * K -> K -> K) l : fold_right w 0 (map g l) = fold_right (fun a => w (g a)) 0 l.
  Proof. induction l; cbn; congruence. Qed.
  Lemma fold_scale {T} (c : K) (a b : T -> K) l : (forall t, In t l -> a t = c * b t) ->
    fold_right (fun t acc => a t + acc) 0 l = c * fold_right (fun t acc => b t + acc) 0 l.
  Proof.
    induction l as [|t l IH]; intros H; cbn; [ring|]. rewrite IH by (intros; apply H; right; assumption).
    rewrite (H t) by (left; reflexivity). ring.
  Qed.

  (** the staggered scheme itself *)
  Lemma raw_value : value (here x dx other U) un (of_points u disp (compact o (dx i))) =
    apply_stencil (central o (if Nat.even o then dx i else dx i / (1 + 1))) along (x i) (if Nat.even o then dx i else dx i / (1 + 1)).
  Proof.
    rewrite value_points. unfold compact, apply_stencil, central. rewrite fold_map. cbn [fst snd].
    transitivity (1 * fold_right (fun t acc => (sgn (o - t) * fnat (binom o t) / fpow (dx i) o *
                        along (x i + fq (halves (2 * Z.of_nat t - Z.of_nat o)) * dx i)) + acc) 0 (seq 0 (S o))).
    - apply (fold_scale 1). intros t _. rewrite here_along. ring.
    - symmetry. destruct (Nat.Even_or_Odd o) as [[p E]|[p E]].
      + assert (He : Nat.even o = true) by (apply Nat.even_spec; exists p; auto). rewrite He.
        rewrite <- (map_map (fun j => j) _), map_id.
        assert (F : forall l, fold_right (fun (kw : Z * K) acc => snd kw * along (x i + fz (fst kw) * dx i) + acc) 0
             (map (fun j => ((Z.of_nat j - Z.of_nat o / 2)%Z, sgn (o - j) * fnat (binom o j) / fpow (dx i) o)) l) =
             1 * fold_right (fun t acc => (sgn (o - t) * fnat (binom o t) / fpow (dx i) o *
                        along (x i + fq (halves (2 * Z.of_nat t - Z.of_nat o)) * dx i)) + acc) 0 l).
        { induction l as [|t l IH]; cbn [map fold_right fst snd]; [ring|]. rewrite IH, fq_halves.
          replace (Z.of_nat o / 2)%Z with (Z.of_nat p) by (subst o; rewrite Nat2Z.inj_mul; change (Z.of_nat 2) with 2%Z; rewrite Z.mul_comm, Z.div_mul by lia; reflexivity).
          replace (2 * Z.of_nat t - Z.of_nat o)%Z with (2 * (Z.of_nat t - Z.of_nat p))%Z by lia. rewrite fz_mul. change (@fz K 2) with (@fnat K 2). cbn [fnat].
          replace ((1 + (1 + 0)) * fz (Z.of_nat t - Z.of_nat p) / (1 + 1)) with (@fz K (Z.of_nat t - Z.of_nat p)) by (field; apply f2_neq0). ring. }
        apply F.
      + assert (He : Nat.even o = false).
        { rewrite <- Nat.negb_odd. replace (Nat.odd o) with true; auto. symmetry. apply Nat.odd_spec. exists p; auto. }
        rewrite He.
        assert (S2 : (1 + 1) * (dx i / (1 + 1)) = dx i) by (field; apply f2_neq0). rewrite S2.
        assert (F : forall l, fold_right (fun (kw : Z * K) acc => snd kw * along (x i + fz (fst kw) * (dx i / (1 + 1))) + acc) 0
             (map (fun j => ((2 * Z.of_nat j - Z.of_nat o)%Z, sgn (o - j) * fnat (binom o j) / fpow (dx i) o)) l) =
             1 * fold_right (fun t acc => (sgn (o - t) * fnat (binom o t) / fpow (dx i) o *
                        along (x i + fq (halves (2 * Z.of_nat t - Z.of_nat o)) * dx i)) + acc) 0 l).
        { induction l as [|t l IH]; cbn [map fold_right fst snd]; [ring|]. rewrite IH, fq_halves.
          replace (fz (2 * Z.of_nat t - Z.of_nat o) / (1 + 1) * dx i) with (fz (2 * Z.of_nat t - Z.of_nat o) * (dx i / (1 + 1))) by (field; apply f2_neq0). ring. }
        apply F.
  Qed.

  (** on the regular grid *)
  Lemma moved_value : value (moved x dx other U) un (of_points u disp (compact o (dx i))) =
    (if Nat.even o then 1 else fpow (1 + 1) (o - 1)) * apply_stencil (central o (dx i)) along (x i) (dx i).
  Proof.
    rewrite value_points. unfold compact, apply_stencil, central. rewrite fold_map. cbn [fst snd].
    destruct (Nat.Even_or_Odd o) as [[p E]|[p E]].
    - assert (He : Nat.even o = true) by (apply Nat.even_spec; exists p; auto). rewrite He.
      generalize (seq 0 (S o)). induction l as [|t l IH]; cbn [map fold_right fst snd]; [ring|]. rewrite IH, moved_along.
      replace (Z.of_nat o / 2)%Z with (Z.of_nat p) by (subst o; rewrite Nat2Z.inj_mul; change (Z.of_nat 2) with 2%Z; rewrite Z.mul_comm, Z.div_mul by lia; reflexivity).
      replace (2 * Z.of_nat t - Z.of_nat o)%Z with (2 * (Z.of_nat t - Z.of_nat p))%Z by lia. rewrite halves_even. cbn [Qnum Qden]. rewrite fz_1.
      field. split; [apply fpow_neq0; exact Hh|apply f1_neq0].
    - assert (He : Nat.even o = false).
      { rewrite <- Nat.negb_odd. replace (Nat.odd o) with true; auto. symmetry. apply Nat.odd_spec. exists p; auto. }
      rewrite He.
      assert (P : fpow ((1 + 1) * dx i) o = (1 + 1) * fpow (1 + 1) (o - 1) * fpow (dx i) o).
      { rewrite fpow_mul_base. destruct o as [|o']; [lia|]. cbn [fpow Nat.sub]. rewrite Nat.sub_0_r. ring. }
      rewrite P.
      generalize (seq 0 (S o)). induction l as [|t l IH]; cbn [map fold_right fst snd]; [ring|]. rewrite IH, moved_along.
      replace (2 * Z.of_nat t - Z.of_nat o)%Z with (2 * (Z.of_nat t - Z.of_nat p - 1) + 1)%Z by lia. rewrite halves_odd. cbn [Qnum Qden].
      change (@fz K 2) with (@fnat K 2). cbn [fnat].
      field. repeat split; try apply fpow_neq0; try apply f2_neq0; try exact Hh.
  Qed.

  Lemma regular_value : exists e r, sympy_finite_difference u disp o (x i) (dx i) = Ok e /\ regularize ord e = Ok r /\
    value (here x dx other U) un e = apply_stencil (central o (if Nat.even o then dx i else dx i / (1 + 1))) along (x i) (if Nat.even o then dx i else dx i / (1 + 1)) /\
    value (here x dx other U) un r = (if Nat.even o then 1 else fpow (1 + 1) (o - 1)) * apply_stencil (central o (dx i)) along (x i) (dx i).
  Proof.
    assert (R : forall a, In a (fns (of_points u disp (compact o (dx i)))) -> Forall rational (snd a)).
    { intros a Ha. apply fns_points in Ha as [q ->]. apply rational_disp. }
    exists (of_points u disp (compact o (dx i))), (simul image (of_points u disp (compact o (dx i)))).
    split; [apply sympy_ok|]. split; [apply (regularize_ok ord Hord); exact R|]. split; [apply raw_value|].
    rewrite value_simul by exact R. apply moved_value.
  Qed.
End Main.

Section First.
  Context {K : Fld}.
  Open Scope fld_scope.
  Add Field Kf1 : (f_th K).
  Lemma first_difference (f : K -> K) (x h : K) : h <> 0 ->
    (if Nat.even 1 then 1 else fpow (1 + 1) (1 - 1)) * apply_stencil (central 1 h) f x h = (f (x + h) - f (x - h)) / ((1 + 1) * h).
  Proof.
    intros Hh. unfold central, apply_stencil.
    change (map _ (seq 0 2)) with [((-1)%Z, sgn 1 * fnat (binom 1 0) / fpow ((1 + 1) * h) 1); (1%Z, sgn 0 * fnat (binom 1 1) / fpow ((1 + 1) * h) 1)].
    cbn [fold_right fst snd Nat.even Nat.sub fpow]. rewrite fz_1. change (-1)%Z with (- (1))%Z. rewrite fz_opp, fz_1.
    replace (x + 1 * h) with (x + h) by ring. replace (x + - (1) * h) with (x - h) by ring.
    cbn. field. split; [exact Hh|apply f2_neq0].
  Qed.
End First.
