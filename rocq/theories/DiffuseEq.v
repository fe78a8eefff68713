(** The right hand side of diffusion_in_2D is the divergence of the flux. *)
From Coq Require Import List String QArith Qcanon Ring.
From Verif Require Import PyBase SymModel RandomModel Reynolds RandomSpec PDEModel UtilModel DiffuseModel.
Import ListNotations.
Close Scope Q_scope. Close Scope Qc_scope.
Open Scope string_scope.
Open Scope list_scope.

Section Equation.
  Context {A : RAlg} (I : interp A).
  Add Ring RA : (c_th A).
  Lemma two : @cq A (Q2Qc 2) = cadd c1 c1.
  Proof. rewrite <- cq_1, <- cq_add. reflexivity. Qed.
  Lemma diffusion_expanded : exists e, diffusion_source = Ok e /\
    value I e = cadd (dd "x" (cadd (cmul (value I kappa11) (dd "x" (value I heat))) (cmul (value I kappa12) (dd "y" (value I heat)))))
                     (dd "y" (cadd (cmul (value I kappa12) (dd "x" (value I heat))) (cmul (value I kappa22) (dd "y" (value I heat))))) /\
    value I e = value I (SAdd diffusion_terms).
  Proof.
    eexists. split; [vm_compute; reflexivity|].
    change (SApp "\kappa_{11}" [SSym Plain "x"; SSym Plain "y"]) with kappa11.
    change (SApp "\kappa_{12}" [SSym Plain "x"; SSym Plain "y"]) with kappa12.
    change (SApp "\kappa_{22}" [SSym Plain "x"; SSym Plain "y"]) with kappa22.
    change (SApp "u" [SSym Plain "t"; SSym Plain "x"; SSym Plain "y"]) with heat.
    unfold diffusion_terms.
    set (a := kappa11). set (b := kappa12). set (d := kappa22). set (u := heat).
    cbn [value map fold_right ders Nat.iter]. set (va := value I a). set (vb := value I b). set (vd := value I d). set (vu := value I u).
    assert (Z : forall v : A, cadd v c0 = v) by (intros; ring). assert (O : forall v : A, cmul v c1 = v) by (intros; ring).
    rewrite !O, !Z. split; [reflexivity|].
    rewrite two. change (Nat.iter 2 (dd "x") vu) with (dd "x" (dd "x" vu)). change (Nat.iter 2 (dd "y") vu) with (dd "y" (dd "y" vu)).
    change (Nat.iter 1 (@dd A "x")) with (@dd A "x"). change (Nat.iter 1 (@dd A "y")) with (@dd A "y"). rewrite !dd_add, !dd_mul, (dd_comm _ "y" "x"). ring.
  Qed.
End Equation.
