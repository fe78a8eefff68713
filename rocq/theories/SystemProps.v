(** Theorems about the functions that treat a list of equations one by one
    (C25, C37, C73, C104 continued). *)
From Coq Require Import List Arith ZArith QArith Qcanon Bool String Permutation Lia.
From Verif Require Import PyBase PyBaseFacts Scalars FieldFacts FornbergModel FDExprModel FDSystemModel FDSpec FDExprSpec FDProofs FDProps
  PartialOrderModel PartialOrderSpec PartialOrderProofs TreeProps SymModel RandomInst PDEModel UtilModel UtilSpec UtilProps.
From Verif Require StagModel StagSpec StagProofs StagMain StagProps.
Import ListNotations.
Close Scope Q_scope. Close Scope Qc_scope. Open Scope list_scope. Open Scope nat_scope.

(** C25: in a system every right-hand side is discretized on its own and the left-hand
    sides are kept *)
Theorem C25_system :
  forall (K : Fld) (x dx : nat -> K), (forall i, dx i <> f0) ->
  forall ord ordE, (forall l, Permutation (ord l) l) -> (forall l, Permutation (ordE l) l) ->
  forall s, (forall q, In q s -> has_DerOf (snd q) = false) ->
  exists s', finite_difference_system x dx ord ordE s = Ok s'
    /\ Forall2 (fun q q' => fst q' = fst q /\ ders (snd q') = []
         /\ ((forall u s a, In (u, s, a) (ders (snd q)) -> List.length s = List.length a) ->
             forall U un dv, value x dx U un dv (snd q')
               = value x dx U un (fun u s a => partials dx (variables 0 a) (U u) (displaced x dx s)) (snd q))) s s'.
Proof.
  intros K x dx Hd ord ordE Hp Hq s. induction s as [|q s IH]; intros H.
  - exists []. split; [reflexivity|constructor].
  - destruct IH as [s' [E F]]; [intros q' I; apply H; right; exact I|].
    destruct (C25_simultaneous_replacement K x dx Hd ord ordE Hp Hq (snd q) (H q (or_introl eq_refl)))
      as [e' [E' [D [_ V]]]].
    exists ((fst q, e') :: s'). split.
    + unfold finite_difference_system in *. cbn [mapM]. rewrite E'. cbn [bind]. rewrite E. reflexivity.
    + constructor; [|exact F]. split; [reflexivity|]. split; [exact D|exact V].
Qed.
Print Assumptions C25_system.

(** the system (u_t = u_x, v_t = u): [Fn] for the left-hand sides *)
Definition two_equations : list (@expr QcF * @expr QcF) :=
  [(Fn 7 [0%Z], Der 0 [0%Z] [1]); (Fn 8 [0%Z], Fn 0 [0%Z])].
Example C25_system_example : (forall q, In q two_equations -> has_DerOf (snd q) = false) /\
  exists e, finite_difference_system (fun _ => f0) (fun _ => f1) (fun l => l) (fun l => l) two_equations
    = Ok [(Fn 7 [0%Z], e); (Fn 8 [0%Z], Fn 0 [0%Z])] /\ ders e = [].
Proof.
  split.
  - intros q [<-|[<-|[]]]; reflexivity.
  - eexists. split; vm_compute; reflexivity.
Qed.

(** C37: the attribute [degree] of what [all_of_degree] returns is the degree asked for *)
Theorem C37_degree : forall enum coords order l, (forall l, Permutation (enum l) l) ->
  all_of_degree enum coords order = Ok l ->
  forall p, In p l -> p_degree p = order /\ p_coords p = coords.
Proof.
  intros enum coords order l H E p I. destruct coords as [|c r]; [discriminate E|].
  destruct (C37_all_of_degree enum (c :: r) order H) as [l' [E' [_ S]]]; [discriminate|].
  rewrite E in E'. injection E' as ->. apply in_map_iff in I. destruct I as [o [<- I]].
  apply S in I. destruct I as [_ [_ D]]. split; [exact D|reflexivity].
Qed.
Print Assumptions C37_degree.
Example C37_degree_example : forall l, all_of_degree (@rev _) ["x"; "y"]%string 3 = Ok l ->
  List.length l = 4 /\ map p_degree l = [3; 3; 3; 3]%Z.
Proof. intros l E. vm_compute in E. injection E as <-. split; reflexivity. Qed.

(** C73: [CompareEquation] compares the two left-hand sides and the two right-hand sides *)
Theorem C73_equation expand q1 q2 :
  forall x,
    (In x (fst (compare_lhs expand q1 q2)) <-> term_of x (expand (fst q1)) /\ term_of x (expand (fst q2))) /\
    (In x (fst (snd (compare_lhs expand q1 q2))) <-> term_of x (expand (fst q1)) /\ ~ term_of x (expand (fst q2))) /\
    (In x (snd (snd (compare_lhs expand q1 q2))) <-> term_of x (expand (fst q2)) /\ ~ term_of x (expand (fst q1))) /\
    (In x (fst (compare_rhs expand q1 q2)) <-> term_of x (expand (snd q1)) /\ term_of x (expand (snd q2))) /\
    (In x (fst (snd (compare_rhs expand q1 q2))) <-> term_of x (expand (snd q1)) /\ ~ term_of x (expand (snd q2))) /\
    (In x (snd (snd (compare_rhs expand q1 q2))) <-> term_of x (expand (snd q2)) /\ ~ term_of x (expand (snd q1))).
Proof.
  intros x. destruct (C73_partition expand (fst q1) (fst q2) x) as [A [B C]].
  destruct (C73_partition expand (snd q1) (snd q2) x) as [D [E F]].
  repeat (split; [assumption|]). exact F.
Qed.
Print Assumptions C73_equation.

(** C104: regularising a system: left-hand sides are kept, each right-hand side is
    regularised on its own, and one irrational displacement makes the whole call fail *)
Theorem C104_system :
  forall (K : Fld) (s : list (@StagModel.sexpr K * @StagModel.sexpr K)),
    (forall q a, In q s -> In a (StagModel.fns (snd q)) -> Forall StagSpec.rational (snd a)) ->
    exists s', (forall ord, (forall l, Permutation (ord l) l) -> StagModel.regularize_system ord s = Ok s') /\
      Forall2 (fun q q' => fst q' = fst q
        /\ (forall a, In a (StagModel.fns (snd q')) -> Forall StagSpec.on_grid (snd a))
        /\ forall (x dx other : nat -> K) U un,
             StagSpec.value (StagSpec.here x dx other U) un (snd q')
             = StagSpec.value (StagSpec.moved x dx other U) un (snd q)) s s'.
Proof.
  intros K s. induction s as [|q s IH]; intros H.
  - exists []. split; [reflexivity|constructor].
  - destruct IH as [s' [E F]]; [intros q' a I; apply H; right; exact I|].
    destruct (StagProps.C104_regularized K (snd q)) as [r [R [G V]]].
    { intros a I. apply (H q a); [left; reflexivity|exact I]. }
    exists ((fst q, r) :: s'). split.
    + intros ord P. unfold StagModel.regularize_system in *. cbn [mapM]. rewrite (R ord P). cbn [bind].
      rewrite (E ord P). reflexivity.
    + constructor; [|exact F]. split; [reflexivity|]. split; [exact G|exact V].
Qed.
Print Assumptions C104_system.

Theorem C104_system_refused :
  forall (K : Fld) ord, (forall l, Permutation (ord l) l) -> forall s : list (@StagModel.sexpr K * @StagModel.sexpr K),
    (exists q a, In q s /\ In a (StagModel.fns (snd q)) /\ ~ Forall StagSpec.rational (snd a)) ->
    StagModel.regularize_system ord s = Err ValueError.
Proof.
  intros K ord P s. induction s as [|q s IH]; intros [q' [a [I [A N]]]]; [destruct I|].
  unfold StagModel.regularize_system in *. cbn [mapM].
  destruct (StagModel.regularize ord (snd q)) as [r|e] eqn:E.
  - destruct I as [->|I].
    + rewrite (StagProps.C104_refused K ord P (snd q')) in E; [discriminate E|]. exists a. split; assumption.
    + cbn [bind]. rewrite IH; [reflexivity|]. exists q', a. repeat split; assumption.
  - cbn [bind]. f_equal.
    assert (D : forall a : StagModel.fatom, {Forall StagSpec.rational (snd a)} + {~ Forall StagSpec.rational (snd a)}).
    { intros b. apply Forall_dec. intros []; [left|right]; cbn; auto. }
    destruct (Forall_Exists_dec _ D (StagModel.fns (snd q))) as [Y|Y].
    + rewrite Forall_forall in Y.
      destruct (StagProps.C104_regularized K (snd q) Y) as [r [R _]]. rewrite (R ord P) in E. discriminate E.
    + apply Exists_exists in Y. rewrite (StagProps.C104_refused K ord P (snd q) Y) in E. congruence.
Qed.
Print Assumptions C104_system_refused.

(** u_t = u(x + dx/2) and v_t = u(x + c*dx) with c unknown: refused; without the second, doubled *)
Definition half_step : @StagModel.sexpr QcF := StagModel.Fn (0, [StagModel.Rat (Q2Qc (1 # 2))]).
Example C104_system_example :
  (exists r, StagModel.regularize_system (fun l => l) [(StagModel.Fn (7, []), half_step)] = Ok [(StagModel.Fn (7, []), r)])
  /\ StagModel.regularize_system (fun l => l)
       [(StagModel.Fn (7, []), half_step); (StagModel.Fn (8, []), StagModel.Fn (0, [StagModel.Other 0]))] = Err ValueError.
Proof. split; [eexists; reflexivity|reflexivity]. Qed.

(** u_t = u + v against u_t = u *)
Example C73_equation_example :
  let u := SSym Plain "u"%string in let v := SSym Plain "v"%string in
  compare_rhs (fun e => e) (u, SAdd [u; v]) (u, u) = ([u], ([v], [])) /\
  compare_lhs (fun e => e) (u, SAdd [u; v]) (u, u) = ([u], ([], [])).
Proof. split; reflexivity. Qed.
