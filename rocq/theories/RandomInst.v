(** A concrete interpretation of expressions (for examples and counterexamples). *)
From Coq Require Import List Arith Bool String QArith Qcanon Lia Ring FunctionalExtensionality.
From Verif Require Import PyBase PyBaseFacts SymModel RandomModel Reynolds ReynoldsInst RandomSpec
  RandomProofs RandomMore RandomTotal.
Import ListNotations.
Close Scope Q_scope. Close Scope Qc_scope.
Open Scope nat_scope.
Open Scope string_scope.
Open Scope list_scope.
Open Scope py_scope.

Lemma det_cpow {A : RAlg} (a : A) n : det a -> det (cpow a n).
Proof. intros H. induction n; simpl; [apply det_1|apply det_mul; auto]. Qed.

Section Inst.
  Variable lam : string -> Qc.
  Notation W := (wave lam).

  (** omega is 2 for half of the events and 0 for the others; x is the exponential, every
      other symbol is 1; a function is the product of its arguments; an integral is its
      integrand times the product of the bounds *)
  Definition w_omega : W := fun o => h_q (if fst o then Q2Qc 2 else Q2Qc 0).
  Definition w_exp : W := fun _ _ => 1%Qc.
  Definition w_sym (k : kind) (s : string) : W :=
    if sx_eq_dec (SSym k s) omega then w_omega
    else if String.eqb s "x" then w_exp else c1.
  Definition w_prod (l : list W) : W := fold_right cmul c1 l.
  Definition w_bounds (ls : list (string * list W)) : W := w_prod (map (fun p => w_prod (snd p)) ls).
  Definition w_pow (a b : W) : W :=
    match Qnum (this (b (true, true) O)) with
    | Zpos p => if Pos.eqb (Qden (this (b (true, true) O))) 1 then cpow a (Pos.to_nat p) else c0
    | _ => c0
    end.
  Definition w_int : interp W :=
    {| i_sym := w_sym; i_fun := fun _ l => w_prod l; i_pow := w_pow;
       i_int := fun a ls => cmul (w_bounds ls) a; i_oth := fun _ l => w_prod l |}.

  Lemma Zpos_canon p : this (Q2Qc (Zpos p # 1)) = (Zpos p # 1)%Q.
  Proof.
    simpl. destruct p; reflexivity.
  Qed.

  Lemma w_lawful : lawful w_int.
  Proof.
    constructor; cbn [i_sym i_fun i_pow i_int i_oth w_int].
    - intros k s N. unfold w_sym. destruct sx_eq_dec; [contradiction|].
      destruct (String.eqb s "x"); [|apply det_1]. unfold det. extensionality o; extensionality j.
      apply (avg_const 1%Qc).
    - intros _ l. apply det_prod.
    - intros a b Ha Hb. unfold w_pow. destruct (Qnum _); try apply det_0.
      destruct (Pos.eqb _ _); [apply det_cpow; auto|apply det_0].
    - intros a p. unfold w_pow.
      change ((cq (Q2Qc (Z.pos p # 1)) : W) (true, true) 0) with (Q2Qc (Zpos p # 1)).
      rewrite Zpos_canon. reflexivity.
    - intros a ls H. apply EE_det_l. apply det_prod. rewrite Forall_forall in *.
      intros y Hy. apply in_map_iff in Hy as (p & <- & Hp). apply det_prod. auto.
    - intros _ l. apply det_prod.
  Qed.
End Inst.

Lemma avg_omega n : avg (fun o => h_q (if fst o then Q2Qc 2 else Q2Qc 0) n) = h_q 1%Qc n.
Proof. destruct n; apply Qc_is_canon; vm_compute; reflexivity. Qed.

(** X(x,y,omega) *)
Definition X_field : sx := SApp "X" [SSym Plain "x"; SSym Plain "y"; omega].
Definition lam12 (c : string) : Qc := if String.eqb c "y" then Q2Qc 2 else 1%Qc.

Lemma value_X lam o n : value (w_int lam) X_field o n = h_q (if fst o then Q2Qc 2 else Q2Qc 0) 0.
Proof.
  transitivity (cmul (w_exp lam) (cmul c1 (cmul (w_omega lam) c1)) o n); [reflexivity|].
  assert (E : cmul (w_exp lam) (cmul c1 (cmul (w_omega lam) c1)) = cmul (w_omega lam) (w_exp lam)).
  { destruct (c_th (wave lam)). rewrite Rmul_1_l, (Rmul_comm (w_omega lam) c1), Rmul_1_l. apply Rmul_comm. }
  rewrite E. simpl. unfold r_mul, h_mul, w_omega. rewrite h_mul_q. unfold w_exp. simpl. ring.
Qed.

Lemma EE_X lam : EE (value (w_int lam) X_field) = w_exp lam.
Proof.
  extensionality o. extensionality n.
  change (avg (fun o => value (w_int lam) X_field o n) = w_exp lam o n).
  transitivity (avg (fun o => h_q (if fst o then Q2Qc 2 else Q2Qc 0) 0)).
  - unfold avg. f_equal; [f_equal; [f_equal|]|]; f_equal; apply (value_X lam).
  - rewrite avg_omega. reflexivity.
Qed.

Definition int_random_bound : sx := SInt (SApp "f" [SSym Plain "x"]) [("x", [SNum 1%Q; omega])].

Lemma int_random_bound_nonrandom : israndom int_random_bound = Ok false.
Proof. reflexivity. Qed.

Lemma int_random_bound_not_det lam : ~ det (value (w_int lam) int_random_bound).
Proof.
  intros H. apply (f_equal (fun a : wave lam => a (false, true) 0%nat)) in H.
  apply (f_equal this) in H. vm_compute in H. discriminate.
Qed.

Definition mixed_X : sx := SDer X_field [("x", 1); ("y", 1)].

Lemma mixed_X_result expand k : expand mixed_X = mixed_X -> expand X_field = X_field ->
  expectation expand (S (S k)) mixed_X = Ok (SDer (SEx X_field) [("x", 1)]).
Proof.
  intros E1 E2.
  assert (E3 : expectation expand (S k) X_field = Ok (SEx X_field)).
  { cbn [expectation]. rewrite E2. reflexivity. }
  remember (S k) as j. cbn [expectation]. rewrite E1. cbn [bind].
  replace (israndom mixed_X) with (@Ok bool true) by reflexivity. cbn [bind negb].
  unfold mixed_X. rewrite E3. reflexivity.
Qed.

Lemma mixed_X_wrong :
  value (w_int lam12) (SDer (SEx X_field) [("x", 1)]) <> EE (value (w_int lam12) mixed_X).
Proof.
  change (value (w_int lam12) mixed_X) with (ders [("x", 1); ("y", 1)] (value (w_int lam12) X_field)).
  change (value (w_int lam12) (SDer (SEx X_field) [("x", 1)]))
    with (ders [("x", 1)] (EE (value (w_int lam12) X_field))).
  rewrite EE_ders, EE_X. intros H.
  apply (f_equal (fun a : wave lam12 => a (false, true) 0%nat)) in H.
  apply (f_equal this) in H. vm_compute in H. discriminate.
Qed.

Lemma sub_size : exists size : sx -> nat, forall x e, child x e -> size x < size e.
Proof.
  exists (fun e => List.length (subterms e)). intros x e H.
  assert (L : forall l y, In y l -> List.length (subterms y) <= List.length (flat_map subterms l)).
  { clear. induction l as [|z l IH]; simpl; intros y [].
    - subst. rewrite app_length. lia.
    - rewrite app_length. specialize (IH y H). lia. }
  destruct H; simpl; rewrite ?app_length; try (specialize (L _ _ H); lia); try lia.
  assert (G : List.length (subterms x) <=
              List.length (flat_map (fun p => SSym Plain (fst p) :: flat_map subterms (snd p)) l)).
  { clear -L H H0. induction l as [|z l IH]; simpl; [contradiction|]. rewrite app_length.
    destruct H as [->|H]; [specialize (L _ _ H0); lia|]. specialize (IH H). lia. }
  lia.
Qed.

Lemma sub_not_self x e : child x e -> ~ In e (subterms x).
Proof.
  destruct sub_size as [size S].
  assert (G : forall e x, In x (subterms e) -> size x <= size e \/ exists k s, x = SSym k s).
  { induction e0 as [e0 IH] using by_child. intros y Hy.
    destruct (subterms_inv _ _ Hy) as [->|[(k & s & ->)|(z & Hc & Hz)]]; eauto.
    destruct (IH z Hc y Hz) as [|]; auto. left. specialize (S z e0 Hc). lia. }
  intros Hc Hi. destruct (G x e Hi) as [Le|(k & s & ->)].
  - specialize (S x e Hc). lia.
  - inversion Hc.
Qed.

Lemma ex_has_self e : ex_has e [SEx e] = false.
Proof.
  unfold ex_has. cbn [filter]. destruct (sx_eq_dec (SEx e) omega); [discriminate|]. cbn [negb existsb].
  rewrite orb_false_r. apply has_false. apply sub_not_self. constructor.
Qed.
