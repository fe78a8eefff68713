(** C88, square roots: a right-hand side where a power 1/2 or -1/2 is printed sqrt or 1/sqrt. *)
From Coq Require Import List Arith Bool String QArith Permutation.
From Verif Require Import PyBase SymModel PDEModel PDESpec PDEProps StrModel CodegenModel CodegenSpec CodegenProps.
Import ListNotations.
Close Scope Q_scope.
Open Scope nat_scope.
Open Scope string_scope.
Open Scope list_scope.

(** alone, in a product, in a sum, or in a product of a sum *)
Theorem C88_square_root (V : Type) v_num v_add v_mul v_pow (v_zero v_one : V) disc attr exogenous
    enum (E : forall l, Permutation (enum l) l) eqs (S : pdes) prog q b (x : Q) :
  pde_system enum eqs = Ok S -> trend_program enum S eqs = Ok prog -> In q eqs -> (x == 1 # 2 \/ x == - 1 # 2)%Q ->
  (snd q = SPow b (SNum x) \/ (exists l, snd q = SMul l /\ In (SPow b (SNum x)) l) \/ (exists l, snd q = SAdd l /\ In (SPow b (SNum x)) l) \/
   (exists l m, snd q = SAdd l /\ In (SMul m) l /\ In (SPow b (SNum x)) m)) ->
  forall state r, run_trend V v_num v_add v_mul v_pow v_zero v_one disc attr exogenous prog state <> Ok r.
Proof.
  intros B P Hq Hx H. apply (C88_unreadable V v_num v_add v_mul v_pow v_zero v_one disc attr exogenous enum E eqs S prog
    (["self"; "t"; "state"; "dstate"] ++ flat_map assigned prog) q B P); [intros y; apply in_app_iff|exact Hq|].
  assert (R : unreadable (s_constants S) (["self"; "t"; "state"; "dstate"] ++ flat_map assigned prog) (SPow b (SNum x))).
  { apply un_root. cbn. apply orb_true_iff. destruct Hx as [Hx|Hx]; [left|right]; apply Qeq_bool_iff; exact Hx. }
  destruct H as [->|[(l & -> & I)|[(l & -> & I)|(l & m & -> & I & J)]]]; eauto using unreadable.
Qed.
Print Assumptions C88_square_root.
(** D_t u = a / sqrt(u) *)
Example C88_square_root_example : exists S prog,
  let eqs := [(SDer u_ [("t", 1)], SMul [SSym Plain "a"; SPow u_ (SNum (- 1 # 2))])] in
  pde_system (fun l => l) eqs = Ok S /\ trend_program (fun l => l) S eqs = Ok prog.
Proof. do 2 eexists. split; vm_compute; reflexivity. Qed.
