(** Property theorems: PDESystem and derivative orders. *)
From Coq Require Import List Arith Bool String QArith Permutation Lia.
From Verif Require Import PyBase SymModel RandomProofs PDEModel PDESpec PDEProofs.
Import ListNotations.
Close Scope Q_scope.
Open Scope nat_scope.
Open Scope string_scope.
Open Scope list_scope.

(** Burgers with a forcing F(t,x), a topography h(x) and a trainable coefficient:
    D_t u = - u D_x u + kappa D_x^2 u + a F + h *)
Definition x_ := SSym Plain "x".
Definition u_ := SApp "u" [time; x_].
Definition F_ := SApp "F" [time; x_].
Definition h_ := SApp "h" [x_].
Definition burgers : list equation :=
  [(SDer u_ [("t", 1)],
    SAdd [SMul [SNum (-1); u_; SDer u_ [("x", 1)]];
          SMul [SSym Plain "kappa"; SDer u_ [("x", 2)]];
          SMul [SSym Trainable "a"; F_]; h_])].
Definition burgers_system : pdes :=
  {| s_functions := [u_; F_; h_]; s_prognostic := [u_]; s_constant := [h_]; s_exogenous := [F_];
     s_coordinates := [time; x_]; s_spatial := [x_]; s_trainable := [SSym Trainable "a"];
     s_constants := [SSym Plain "kappa"];
     s_derivatives := [SDer u_ [("x", 1)]; SDer u_ [("x", 2)]]; s_max_order := 2 |}.
Example burgers_ok : pde_system (fun l => l) burgers = Ok burgers_system.
Proof. vm_compute. reflexivity. Qed.

(** C66 *)
Theorem C66_partition enum (E : forall l, Permutation (enum l) l) eqs S :
  pde_system enum eqs = Ok S -> forall f,
    (In f (s_functions S) <-> a_function f /\ occurs f eqs) /\
    (In f (s_functions S) ->
       exactly_one (In f (s_prognostic S)) (In f (s_constant S)) (In f (s_exogenous S))) /\
    (In f (s_constant S) \/ In f (s_exogenous S) -> In f (s_functions S)) /\
    (In f (s_prognostic S) <-> time_differentiated f eqs).
Proof. exact (functions_partition enum E eqs S). Qed.
Print Assumptions C66_partition.
Example C66_example : In h_ (s_functions burgers_system) /\ In h_ (s_constant burgers_system) /\
  ~ In h_ (s_exogenous burgers_system).
Proof. simpl. unfold h_, F_, u_. intuition discriminate. Qed.

(** C67 *)
Theorem C67_time_first enum (E : forall l, Permutation (enum l) l) eqs S :
  pde_system enum eqs = Ok S ->
  (forall f l, occurs (SApp f l) eqs -> In time (flat_map subterms l) ->
               exists a r, l = a :: r /\ In time (subterms a)) ->
  forall f, In f (s_constant S) -> ~ In time (subterms f).
Proof. exact (constant_no_time enum E eqs S). Qed.
Print Assumptions C67_time_first.
Example C67_example : In h_ (s_constant burgers_system) /\
  forall f l, occurs (SApp f l) burgers -> In time (flat_map subterms l) ->
               exists a r, l = a :: r /\ In time (subterms a).
Proof.
  split; [simpl; auto|]. intros f l (a & b & [H|[]] & O) T. injection H as <- <-. simpl in O.
  intuition (try discriminate);
    match goal with H : SApp _ _ = SApp _ _ |- _ => injection H as <- <- end;
    try (eexists; eexists; split; [reflexivity|simpl; auto]; fail).
  all: simpl in T; unfold time, x_ in T; intuition discriminate.
Qed.
(** k(x,t) depends on time and is classified constant *)
Theorem C67_time_last_refuted : exists eqs S f,
  pde_system (fun l => l) eqs = Ok S /\ In f (s_constant S) /\ In time (args f).
Proof.
  exists [(SDer u_ [("t", 1)], SMul [SApp "k" [x_; time]; u_])]. eexists. exists (SApp "k" [x_; time]).
  split; [vm_compute; reflexivity|]. simpl. auto.
Qed.
Print Assumptions C67_time_last_refuted.

(** C68 *)
Theorem C68_constants enum (E : forall l, Permutation (enum l) l) eqs S :
  pde_system enum eqs = Ok S -> forall x,
    (In x (s_constants S) <-> a_symbol x /\ occurs_rhs x eqs /\ ~ In x (s_coordinates S) /\ ~ a_trainable x) /\
    (In x (s_trainable S) <-> a_trainable x /\ occurs_rhs x eqs) /\
    ~ (In x (s_constants S) /\ In x (s_trainable S)).
Proof.
  intros H x. pose proof (in_constants enum eqs S H x) as A. pose proof (in_trainable enum eqs S H x) as B.
  repeat split; try tauto.
Qed.
Print Assumptions C68_constants.
Example C68_example : In (SSym Plain "kappa") (s_constants burgers_system) /\
  occurs_rhs x_ burgers /\ ~ In x_ (s_constants burgers_system).
Proof.
  split; [simpl; auto|]. split.
  - eexists. eexists. split; [left; reflexivity|]. simpl. tauto.
  - simpl. unfold x_. intuition discriminate.
Qed.

(** C69 *)
Theorem C69_coordinates enum eqs S : pde_system enum eqs = Ok S ->
  s_coordinates S = time :: s_spatial S /\
  exists l1 f l2, s_prognostic S = l1 ++ f :: l2 /\ s_coordinates S = args f /\
    Forall (fun g => List.length (args g) < List.length (args f)) l1 /\
    Forall (fun g => List.length (args g) <= List.length (args f)) l2.
Proof.
  intros H. apply pde_system_inv in H as (_ & _ & _ & _ & C & T & _). split; [exact T|].
  destruct (coordinates_spec (s_prognostic S)) as [[H1 _]|(l1 & f & l2 & H0 & H1 & H2 & H3 & H4)].
  - rewrite C in T. congruence.
  - exists l1, f, l2. rewrite C. auto.
Qed.
Print Assumptions C69_coordinates.
Theorem C69_failure enum (E : forall l, Permutation (enum l) l) eqs : proper eqs ->
  (forall f, a_function f -> occurs f eqs -> args f <> []) ->
  match pde_system enum eqs with
  | Ok _ => exists f r, time_differentiated f eqs /\ args f = time :: r
  | Err IndexError => forall f, time_differentiated f eqs -> args f = []
  | Err AssertionError =>
      exists f c r, time_differentiated f eqs /\ args f = c :: r /\ c <> time /\
        forall g, time_differentiated g eqs -> List.length (args g) <= List.length (args f)
  | Err _ => False
  end.
Proof. exact (construction enum E eqs). Qed.
Print Assumptions C69_failure.
(** no prognostic function; time second; both raise *)
Example C69_example :
  pde_system (fun l => l) [(SDer u_ [("x", 1)], u_)] = Err IndexError /\
  pde_system (fun l => l) [(SDer (SApp "u" [x_; time]) [("t", 1)], SApp "u" [x_; time])] = Err AssertionError /\
  exists S, pde_system (fun l => l)
    [(SDer (SApp "r" [time]) [("t", 1)], u_); (SDer u_ [("t", 1)], SApp "r" [time])] = Ok S /\
    s_coordinates S = [time; x_].
Proof. repeat split; try (vm_compute; reflexivity). eexists. split; vm_compute; reflexivity. Qed.
(** two prognostic functions with as many arguments but other coordinates: the first decides,
    the second's coordinate is taken for a scalar constant *)
Theorem C69_other_coordinate_refuted : exists eqs S f c,
  pde_system (fun l => l) eqs = Ok S /\ In f (s_prognostic S) /\ In c (args f) /\
  ~ In c (s_coordinates S) /\ In c (s_constants S).
Proof.
  pose (y_ := SSym Plain "y"). pose (v_ := SApp "v" [time; y_]).
  exists [(SDer u_ [("t", 1)], v_); (SDer v_ [("t", 1)], u_)]. eexists. exists v_, y_.
  split; [vm_compute; reflexivity|]. simpl. unfold time, x_, y_. intuition discriminate.
Qed.
Print Assumptions C69_other_coordinate_refuted.

(** C74 *)
Theorem C74_sum v d : partial_orders v = Ok d -> total_order v = Ok (list_sum (map snd d)).
Proof. exact (total_order_sum v d). Qed.
Print Assumptions C74_sum.
Theorem C74_count f v : v <> [] -> NoDup (map fst v) ->
  partial_orders v = Ok v /\ total_order v = Ok (derivative_count (SDer f v)).
Proof.
  intros H N. split; [|apply total_order_count; auto].
  unfold partial_orders. destruct v; [contradiction|]. f_equal.
  apply (partial_orders_nodup _ N []). intros k _ [].
Qed.
Print Assumptions C74_count.
Example C74_example : total_order [("x", 2); ("y", 3)] = Ok 5 /\ NoDup (map fst [("x", 2); ("y", 3)]).
Proof. split; [reflexivity|]. repeat constructor; simpl; intuition discriminate. Qed.

(** C85: one time-first derivative per equation; then the prognostic functions follow the
    equations, whatever the iteration order of the sets *)
Theorem C85_in_order enum (E : forall l, Permutation (enum l) l) eqs fs :
  Forall2 (fun q f => (exists n v, occurs (SDer f (("t", n) :: v)) [q] /\
             forall g m w, occurs (SDer g (("t", m) :: w)) [q] -> SDer g (("t", m) :: w) = SDer f (("t", n) :: v)) /\
             forall g w, occurs (SDer g w) [q] -> w <> []) eqs fs ->
  get_prognostic enum eqs = Ok fs.
Proof.
  intros H. apply (prognostic_in_order enum E eqs fs). clear - H.
  assert (X : forall q g w, In (SDer g w) (eq_atoms is_derivative q) <-> occurs (SDer g w) [q]).
  { intros [l r] g w. rewrite in_eq_atoms. unfold occurs. split.
    - intros (_ & Y). exists l, r. split; [left; reflexivity|exact Y].
    - intros (l' & r' & [Y|[]] & Z). injection Y as -> ->. auto. }
  induction H as [|q f eqs fs ((n & v & H1 & H2) & H3) _ IH]; constructor; [|exact IH]. split.
  - exists n, v. rewrite X. split; [exact H1|]. intros g m w. rewrite X. apply H2.
  - intros g w. rewrite X. apply H3.
Qed.
Print Assumptions C85_in_order.
Example C85_example : get_prognostic (@rev sx) burgers = Ok [u_].
Proof. vm_compute. reflexivity. Qed.
(** a second time derivative in one equation: the function is listed twice and the order
    depends on the set *)
Theorem C85_twice_refuted : exists eqs p q, get_prognostic (fun l => l) eqs = Ok p /\
  get_prognostic (@rev sx) eqs = Ok q /\ ~ NoDup p /\ p <> q.
Proof.
  pose (v_ := SApp "v" [time; x_]).
  exists [(SDer u_ [("t", 1)], SDer v_ [("t", 1)]); (SDer v_ [("t", 1)], u_)]. eexists. eexists.
  split; [vm_compute; reflexivity|]. split; [vm_compute; reflexivity|]. split; [|discriminate].
  intros N. inversion N as [|? ? _ N']. inversion N' as [|? ? N'' _]. apply N''. simpl. auto.
Qed.
Print Assumptions C85_twice_refuted.

(** C86: two trainable scalars of one name are one object: the later attributes win *)
Theorem C86_shared {A} k (a b : A) store :
  let '(first, s1) := trainable_new A k a store in
  let '(second, s2) := trainable_new A k b s1 in
  first = second /\ trainable_get A first s1 = Ok a /\ trainable_get A first s2 = Ok b.
Proof.
  unfold trainable_new, trainable_get. rewrite !PyBaseFacts.dget_dset_same. auto.
Qed.
Print Assumptions C86_shared.
Theorem C86_other_names {A} k l (a b : A) store : k <> l ->
  trainable_get A k (snd (trainable_new A l b store)) = trainable_get A k store.
Proof. intros N. unfold trainable_new, trainable_get. cbn [snd]. rewrite PyBaseFacts.dget_dset_other; auto. Qed.
Print Assumptions C86_other_names.
Example C86_example :
  trainable_get nat ("a", []) (snd (trainable_new nat ("a", []) 2 (snd (trainable_new nat ("a", []) 1 [])))) = Ok 2.
Proof. reflexivity. Qed.
