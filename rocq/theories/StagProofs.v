(** Proofs about staggered finite differences. *)
From Coq Require Import List Arith ZArith QArith Qcanon Bool Lia Field Permutation.
From Verif Require Import PyBase PyBaseFacts Scalars FieldFacts FornbergModel FornbergProofs FDSpec FDProofs StagModel StagSpec.
Import ListNotations.
Close Scope Qc_scope. Close Scope Q_scope. Open Scope nat_scope.
Open Scope py_scope.

Section Proofs.
  Context {K : Fld}.
  Open Scope fld_scope.
  Add Field Kf : (f_th K).

  (** ** displacements *)
  Definition num1 (c : coeff) : coeff := match c with Rat q => Rat (integer (numerator q)) | Other k => Other k end.
  Definition den1 (c : coeff) : Qc := match c with Rat q => unit_fraction (denominator q) | Other _ => 1%Qc end.
  Fixpoint dens (a : Qc) (l : list coeff) : Qc := match l with [] => a | c :: r => dens (a * den1 c)%Qc r end.
  Lemma new_displacement_gen l : Forall rational l -> forall p a,
    foldM (fun st c =>
      match c with
      | Rat q => Ok (fst st ++ [Rat (integer (numerator q))], (snd st * unit_fraction (denominator q))%Qc)
      | Other _ => Err ValueError
      end) (p, a) l = Ok (p ++ map num1 l, dens a l).
  Proof.
    induction 1 as [|c l C _ IH]; intros p a; cbn [foldM]; [rewrite app_nil_r; reflexivity|].
    destruct c as [q|]; [|contradiction]. cbn [bind fst snd]. rewrite IH, <- app_assoc. reflexivity.
  Qed.
  Lemma new_displacement_ok l : Forall rational l -> new_displacement l = Ok (map num1 l, dens 1%Qc l).
  Proof. intros H. unfold new_displacement. rewrite new_displacement_gen by exact H. reflexivity. Qed.
  Lemma new_displacement_bad l : ~ Forall rational l -> forall p a,
    foldM (fun st c =>
      match c with
      | Rat q => Ok (fst st ++ [Rat (integer (numerator q))], (snd st * unit_fraction (denominator q))%Qc)
      | Other _ => Err ValueError
      end) (p, a) l = Err ValueError.
  Proof.
    induction l as [|c l IH]; intros N p a; [destruct N; constructor|]. cbn [foldM]. destruct c as [q|]; [|reflexivity].
    cbn [bind]. apply IH. intros H. apply N. constructor; [exact I|exact H].
  Qed.
  Lemma this_integer n : this (integer n) = (n # 1)%Q.
  Proof. unfold integer, Q2Qc. cbn [this]. unfold Qred. destruct (Z.ggcd n 1) as [g [aa bb]] eqn:E.
    pose proof (Z.ggcd_correct_divisors n 1) as D. pose proof (Z.ggcd_gcd n 1) as G. rewrite E in D, G. cbn [fst snd] in *.
    rewrite Z.gcd_1_r in G. subst g. destruct D as [D1 D2]. replace aa with n by lia. replace bb with 1%Z by lia. reflexivity.
  Qed.
  Lemma num1_grid c : rational c -> on_grid (num1 c).
  Proof. destruct c as [q|]; [|contradiction]. intros _. cbn [num1 on_grid]. rewrite this_integer. reflexivity. Qed.
  Lemma grid_num1 c : on_grid c -> num1 c = c.
  Proof.
    destruct c as [q|]; [|contradiction]. cbn. intros D. f_equal. apply Qc_is_canon. rewrite this_integer. unfold numerator.
    destruct q as [[n d] C]. cbn in *. subst d. reflexivity.
  Qed.
  Lemma grid_den1 c : on_grid c -> den1 c = 1%Qc.
  Proof. destruct c as [q|]; [|contradiction]. cbn. intros D. unfold denominator. rewrite D. apply Qc_is_canon. reflexivity. Qed.
  Lemma grid_map l : Forall on_grid l -> map num1 l = l /\ forall a, dens a l = a.
  Proof.
    induction 1 as [|c l C _ [M D]]; [split; reflexivity|]. cbn. rewrite (grid_num1 c C), M. split; [reflexivity|].
    intros a. rewrite (grid_den1 c C), D. ring.
  Qed.
  Lemma grid_rational l : Forall on_grid l -> Forall rational l.
  Proof. apply Forall_impl. intros [q|]; [intros; exact I|intros []]. Qed.
  Lemma map_num1_grid l : Forall rational l -> Forall on_grid (map num1 l).
  Proof. induction 1; constructor; [apply num1_grid; assumption|assumption]. Qed.

  (** ** one function *)
  Definition image (a : fatom) : @sexpr K := scaled (dens 1%Qc (snd a)) (Fn (fst a, map num1 (snd a))).
  Lemma regular_ok (a : fatom) : Forall rational (snd a) -> regular_function a = Ok (image a).
  Proof. intros H. unfold regular_function. rewrite (new_displacement_ok _ H). reflexivity. Qed.
  Lemma regular_bad (a : fatom) : ~ Forall rational (snd a) -> @regular_function K a = Err ValueError.
  Proof. intros H. unfold regular_function, new_displacement. rewrite (new_displacement_bad _ H). reflexivity. Qed.
  Lemma image_grid (a : fatom) : Forall on_grid (snd a) -> image a = Fn a.
  Proof.
    intros H. destruct (grid_map _ H) as [M D]. unfold image. rewrite M, D. unfold scaled.
    destruct (Qc_eq_dec 1%Qc 1%Qc); [|contradiction]. destruct a; reflexivity.
  Qed.
  Lemma fns_scaled c (e : @sexpr K) : fns (scaled c e) = fns e.
  Proof. unfold scaled. destruct (Qc_eq_dec c 1%Qc); reflexivity. Qed.

  (** every function at once *)
  Fixpoint simul (r : fatom -> @sexpr K) (e : sexpr) : sexpr :=
    match e with
    | Cst c => Cst c
    | Fn a => r a
    | Add a b => Add (simul r a) (simul r b)
    | Mul a b => Mul (simul r a) (simul r b)
    | Un op e => Un op (simul r e)
    end.
  Lemma simul_ext r r' e : (forall a, In a (fns e) -> r a = r' a) -> simul r e = simul r' e.
  Proof.
    induction e as [c|a|a IHa b IHb|a IHa b IHb|op e IH]; cbn; intros H; try reflexivity.
    - apply H. left. reflexivity.
    - rewrite IHa, IHb; [reflexivity| |]; intros x Hx; apply H; apply in_or_app; auto.
    - rewrite IHa, IHb; [reflexivity| |]; intros x Hx; apply H; apply in_or_app; auto.
    - rewrite IH by exact H. reflexivity.
  Qed.
  Lemma simul_id e : simul (fun a => Fn a) e = e.
  Proof. induction e; cbn; congruence. Qed.
  Lemma subs_simul a new e : subs a new e = simul (fun b => if fatom_dec a b then new else Fn b) e.
  Proof. induction e; cbn; try congruence. Qed.
  Lemma simul_simul r r' e : simul r (simul r' e) = simul (fun a => simul r (r' a)) e.
  Proof. induction e; cbn; congruence. Qed.
  Lemma simul_scaled r c e : simul r (scaled c e) = scaled c (simul r e).
  Proof. unfold scaled. destruct (Qc_eq_dec c 1%Qc); reflexivity. Qed.

  (** the loop over part of the functions *)
  Lemma loop_ok l : forall e, NoDup l -> (forall a, In a l -> Forall rational (snd a)) ->
    foldM (fun e a => new <- regular_function a ;; Ok (subs a new e)) e l
    = Ok (simul (fun b => if in_dec fatom_dec b l then image b else Fn b) e).
  Proof.
    induction l as [|a l IH]; intros e ND R; cbn [foldM].
    - cbn [in_dec]. f_equal. symmetry. apply simul_id.
    - rewrite (regular_ok a) by (apply R; left; reflexivity). cbn [bind]. inversion ND as [|? ? Na ND']; subst.
      rewrite IH by (try assumption; intros b Hb; apply R; right; exact Hb). f_equal.
      rewrite subs_simul, simul_simul. apply simul_ext. intros b _.
      destruct (fatom_dec a b) as [<-|Ne].
      + destruct (in_dec fatom_dec a (a :: l)) as [_|X]; [|destruct X; left; reflexivity].
        unfold image at 2. rewrite simul_scaled. unfold image. cbn [simul]. f_equal.
        destruct (in_dec fatom_dec _ l) as [_|_]; [|reflexivity].
        apply image_grid. cbn [snd]. apply map_num1_grid. apply R. left. reflexivity.
      + cbn [simul]. destruct (in_dec fatom_dec b l) as [J|J]; destruct (in_dec fatom_dec b (a :: l)) as [M|M]; try reflexivity.
        * destruct M. right. exact J.
        * destruct M as [M|M]; contradiction.
  Qed.
  Lemma loop_bad l : forall e, (exists a, In a l /\ ~ Forall rational (snd a)) ->
    foldM (fun e a => new <- @regular_function K a ;; Ok (subs a new e)) e l = Err ValueError.
  Proof.
    induction l as [|a l IH]; intros e (b & B & N); [destruct B|]. cbn [foldM].
    assert (D : Forall rational (snd a) \/ ~ Forall rational (snd a)).
    { destruct (Forall_dec rational (fun c => match c with Rat _ => left I | Other _ => right (fun x => x) end) (snd a)); auto. }
    destruct D as [D|D]; [|rewrite (regular_bad a D); reflexivity].
    rewrite (regular_ok a D). cbn [bind]. apply IH. destruct B as [->|B]; [contradiction|]. exists b. auto.
  Qed.

  Section Order.
    Variable ord : list fatom -> list fatom.
    Hypothesis Hord : forall l, Permutation (ord l) l.
    Lemma regularize_ok e : (forall a, In a (fns e) -> Forall rational (snd a)) -> regularize ord e = Ok (simul image e).
    Proof.
      intros R. unfold regularize. rewrite loop_ok.
      - f_equal. apply simul_ext. intros a A. destruct (in_dec fatom_dec a _) as [_|N]; [reflexivity|].
        destruct N. apply (Permutation_in a (Permutation_sym (Hord _))). apply nodup_In. exact A.
      - apply (Permutation_NoDup (Permutation_sym (Hord _))). apply NoDup_nodup.
      - intros a A. apply R. apply (Permutation_in a (Hord _)) in A. apply nodup_In in A. exact A.
    Qed.
    Lemma regularize_bad e : (exists a, In a (fns e) /\ ~ Forall rational (snd a)) -> @regularize K ord e = Err ValueError.
    Proof.
      intros (a & A & N). apply loop_bad. exists a. split; [|exact N].
      apply (Permutation_in a (Permutation_sym (Hord _))). apply nodup_In. exact A.
    Qed.
  End Order.

  Lemma fns_image e : (forall a, In a (fns e) -> Forall rational (snd a)) ->
    forall a, In a (fns (simul image e)) -> Forall on_grid (snd a).
  Proof.
    induction e as [c|b|a IHa b IHb|a IHa b IHb|op e IH]; cbn; intros R x Hx.
    - destruct Hx.
    - unfold image in Hx. rewrite fns_scaled in Hx. destruct Hx as [<-|[]]. cbn. apply map_num1_grid. apply R. left. reflexivity.
    - apply in_app_or in Hx as [Hx|Hx]; [apply IHa|apply IHb]; auto; intros; apply R; apply in_or_app; auto.
    - apply in_app_or in Hx as [Hx|Hx]; [apply IHa|apply IHb]; auto; intros; apply R; apply in_or_app; auto.
    - apply IH; auto.
  Qed.

  (** ** values *)
  Lemma fz_pos_neq0 p : @fz K (Zpos p) <> 0.
  Proof. intros H. assert (E : @fz K (Zpos p) = fz 0) by exact H. apply fz_inj in E. discriminate. Qed.
  Lemma fq_eq n d n' d' : (n * Zpos d' = n' * Zpos d)%Z -> @fz K n / fz (Zpos d) = fz n' / fz (Zpos d').
  Proof.
    intros H. apply (f_equal (@fz K)) in H. rewrite !fz_mul in H. pose proof (fz_pos_neq0 d). pose proof (fz_pos_neq0 d').
    assert (A : @fz K n / fz (Zpos d) = (fz n * fz (Zpos d')) / (fz (Zpos d) * fz (Zpos d'))) by (field; auto).
    rewrite A, H. field. auto.
  Qed.
  Lemma fq_Q2Qc n d : @fq K (Q2Qc (n # d)) = fz n / fz (Zpos d).
  Proof.
    unfold fq. destruct (this (Q2Qc (n # d))) as [n' d'] eqn:E. apply fq_eq. cbn [Qnum Qden].
    assert (Q : (this (Q2Qc (n # d)) == n # d)%Q) by (cbn [this Q2Qc]; apply Qred_correct). rewrite E in Q. exact Q.
  Qed.
  Lemma fq_mul a b : @fq K (a * b)%Qc = fq a * fq b.
  Proof.
    destruct a as [[na da] Ca], b as [[nb db] Cb]. unfold Qcmult. cbn [this]. unfold Qmult. cbn [Qnum Qden].
    rewrite fq_Q2Qc. unfold fq. cbn [this Qnum Qden]. rewrite Pos2Z.inj_mul, !fz_mul.
    pose proof (fz_pos_neq0 da). pose proof (fz_pos_neq0 db). field. auto.
  Qed.
  Lemma fq_1 : @fq K 1%Qc = 1.
  Proof. unfold fq. change (this 1%Qc) with (1 # 1)%Q. cbn [Qnum Qden]. rewrite fz_1. field. apply f1_neq0. Qed.

  Variables (x dx other : nat -> K) (U : nat -> list K -> K) (un : nat -> K -> K).
  Notation at_ := (here x dx other U).
  Lemma value_scaled c e : value at_ un (scaled c e) = fq c * value at_ un e.
  Proof. unfold scaled. destruct (Qc_eq_dec c 1%Qc) as [->|]; [rewrite fq_1; ring|reflexivity]. Qed.
  Lemma fq_dens l : Forall rational l -> forall a, @fq K (dens a l) = fq a * shared l.
  Proof.
    induction 1 as [|c l C _ IH]; intros a; cbn [dens shared]; [ring|]. destruct c as [q|]; [|contradiction].
    rewrite IH, fq_mul. cbn [den1]. unfold unit_fraction. rewrite fq_Q2Qc, fz_1. pose proof (fz_pos_neq0 (Qden (this q))). unfold denominator. field. auto.
  Qed.
  Lemma point_num1 l : Forall rational l -> forall i, point x dx other i (map num1 l) = stretched x dx other i l.
  Proof.
    induction 1 as [|c l C _ IH]; intros i; [reflexivity|]. destruct c as [q|]; [|contradiction]. cbn [map num1 point stretched].
    rewrite IH. f_equal. unfold number. rewrite this_integer. cbn [Qnum Qden]. rewrite fz_1. unfold numerator. field. apply f1_neq0.
  Qed.
  Lemma value_image a : Forall rational (snd a) -> value at_ un (image a) = moved x dx other U a.
  Proof.
    intros R. unfold image. rewrite value_scaled. cbn [value]. unfold here, moved. cbn [fst snd].
    rewrite (fq_dens _ R), fq_1, (point_num1 _ R). ring.
  Qed.
  Lemma value_simul e : (forall a, In a (fns e) -> Forall rational (snd a)) ->
    value at_ un (simul image e) = value (moved x dx other U) un e.
  Proof.
    induction e as [c|b|a IHa b IHb|a IHa b IHb|op e IH]; cbn [simul value fns]; intros R.
    - reflexivity.
    - apply value_image. apply R. left. reflexivity.
    - rewrite IHa, IHb; [reflexivity| |]; intros; apply R; apply in_or_app; auto.
    - rewrite IHa, IHb; [reflexivity| |]; intros; apply R; apply in_or_app; auto.
    - rewrite IH by exact R. reflexivity.
  Qed.
End Proofs.
