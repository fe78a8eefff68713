(** C127: a PDESystem as a container of equations. *)
From Coq Require Import List Arith ZArith QArith Bool String Ascii Lia Permutation.
From Verif Require Import PyBase PyBaseFacts SymModel PDEModel PDESpec PDEProofs PDEProps StrSpec SysObjModel SysObjSpec SysObjProofs.
Import ListNotations.
Close Scope Q_scope.
Open Scope string_scope.
Open Scope list_scope.
Open Scope nat_scope.

(** a tracer advected by the Burgers wind, and a second equation with a new function *)
Definition v_ := SApp "v" [time; x_].
Definition tracer : equation := (SDer v_ [("t", 1)], SMul [SNum (-1)%Q; u_; SDer v_ [("x", 1)]]).
Definition show_sx (e : sx) : string :=
  match e with SSym _ s => s | SApp f _ => f | SEx _ => "E" | _ => "?" end.
Notation id_ := (fun l : list sx => l).
(** l = [Burgers]; s = PDESystem(l, name='flow') *)
Definition flow : world := run id_ show_sx empty_world [NewList burgers; New (ArgList 0) "flow"].

(** every system of a program has a list of equations, the one that the statements below speak of *)
Theorem C127_reachable enum str h o y :
  nth_error (w_systems (run enum str empty_world h)) o = Some y -> exists L, has (run enum str empty_world h) o y L.
Proof. exact (reachable_has enum str h o y). Qed.
Print Assumptions C127_reachable.
Example C127_reachable_example : exists y, has flow 0 y burgers /\ y_name y = "flow".
Proof. eexists. split; [split; vm_compute; reflexivity|reflexivity]. Qed.

(** an iterator gives the equations in order, once each, then stops for ever, whatever else is done
    meanwhile, other iterators over the same system included *)
Theorem C127_iteration enum str w o y L h :
  has w o y L -> Forall (undisturbed (y_list y) o) h ->
  nexts (List.length (w_gens w)) (trace enum str w (Iter o :: h))
    = once_each L (List.length (filter (is_next (List.length (w_gens w))) h)).
Proof. exact (iteration enum str w o y L h). Qed.
Print Assumptions C127_iteration.
(** two nested iterators over a system of two equations *)
Definition flow2 : world := run id_ show_sx flow [Append 0 tracer].
Example C127_iteration_example :
  let h := [Next 0; Iter 0; Next 1; NewList []; Next 1; Next 1; Next 0; Next 0; Next 0] in
  (exists y, has flow2 0 y (burgers ++ [tracer]) /\ Forall (undisturbed (y_list y) 0) h)
  /\ nexts 0 (trace id_ show_sx flow2 (Iter 0 :: h))
     = [Ok (AEq (hd tracer burgers)); Ok (AEq tracer); Ok AStop; Ok AStop]
  /\ nexts 1 (trace id_ show_sx flow2 (Iter 0 :: h)) = [Ok (AEq (hd tracer burgers)); Ok (AEq tracer); Ok AStop].
Proof.
  cbv zeta. split; [|split; vm_compute; reflexivity].
  eexists. split; [split; vm_compute; reflexivity|]. repeat constructor.
Qed.

(** an iterator that has stopped stays so, even when equations are added *)
Theorem C127_exhausted enum str w g h : fst (step enum str w (Next g)) = Ok AStop ->
  fst (step enum str (run enum str (snd (step enum str w (Next g))) h) (Next g)) = Ok AStop.
Proof. exact (exhausted enum str w g h). Qed.
Print Assumptions C127_exhausted.
Example C127_exhausted_example :
  let w := run id_ show_sx flow [Iter 0; Next 0] in
  fst (step id_ show_sx w (Next 0)) = Ok AStop
  /\ fst (step id_ show_sx (run id_ show_sx w [Append 0 tracer]) (Next 0)) = Ok (AEq tracer)
  /\ fst (step id_ show_sx (run id_ show_sx w [Next 0; Append 0 tracer]) (Next 0)) = Ok AStop.
Proof. cbv zeta. repeat split; vm_compute; reflexivity. Qed.

(** the loop [for q in system: l.append(p)] over the list that the system was made from never ends *)
Theorem C127_iteration_ends_refuted : exists w o a q, (exists y L, has w o y L /\ y_list y = a) /\
  forall n, Forall (fun r => exists e, r = Ok (AEq e))
    (nexts (List.length (w_gens w)) (trace id_ show_sx w (Iter o :: List.concat (repeat [Next (List.length (w_gens w)); Append a q] n))))
    /\ List.length (nexts (List.length (w_gens w)) (trace id_ show_sx w (Iter o :: List.concat (repeat [Next (List.length (w_gens w)); Append a q] n)))) = n.
Proof.
  destruct C127_reachable_example as [y [H _]].
  assert (Y : y_list y = 0) by (destruct H as [H _]; vm_compute in H; injection H as <-; reflexivity).
  exists flow, 0, (y_list y), tracer. split; [exists y, burgers; split; [exact H|reflexivity]|].
  intros n. split.
  - apply (growing id_ show_sx tracer n (snd (step id_ show_sx flow (Iter 0))) 0 y burgers 0 (GStart 0) 0).
    + destruct H. split; assumption.
    + reflexivity.
    + split; reflexivity.
    + cbn. lia.
  - unfold nexts. rewrite map_length. cbn [trace filter fst is_next]. change (List.length (w_gens flow)) with 0.
    generalize (snd (step id_ show_sx flow (Iter 0))) as w.
    induction n as [|n IH]; intros w; [reflexivity|]. cbn [repeat List.concat List.app trace filter fst is_next Nat.eqb List.length].
    f_equal. apply IH.
Qed.
Print Assumptions C127_iteration_ends_refuted.

(** [system[k]]: from the front for k >= 0, from the end for k < 0, an IndexError otherwise; nothing changes *)
Theorem C127_index enum str w o y L : has w o y L -> forall k,
  (forall q, (0 <= k)%Z -> nth_error L (Z.to_nat k) = Some q -> step enum str w (Item o k) = (Ok (AEq q), w)) /\
  (forall q, (k < 0)%Z -> nth_error (rev L) (Z.to_nat (- k - 1)) = Some q -> step enum str w (Item o k) = (Ok (AEq q), w)) /\
  ((k < - Z.of_nat (List.length L) \/ Z.of_nat (List.length L) <= k)%Z -> step enum str w (Item o k) = (Err IndexError, w)).
Proof.
  intros H k. split; [|split].
  - intros q. exact (index_pos enum str w o y L k q H).
  - intros q. exact (index_neg enum str w o y L k q H).
  - exact (index_out enum str w o y L k H).
Qed.
Print Assumptions C127_index.
Example C127_index_example : fst (step id_ show_sx flow2 (Item 0 1)) = Ok (AEq tracer)
  /\ fst (step id_ show_sx flow2 (Item 0 (-1))) = Ok (AEq tracer)
  /\ fst (step id_ show_sx flow2 (Item 0 (-2))) = Ok (AEq (hd tracer burgers))
  /\ fst (step id_ show_sx flow2 (Item 0 2)) = Err IndexError /\ fst (step id_ show_sx flow2 (Item 0 (-3))) = Err IndexError.
Proof. repeat split; vm_compute; reflexivity. Qed.

(** iterating, indexing and printing change neither the lists nor the systems *)
Theorem C127_reads enum str w x : reading x ->
  w_lists (snd (step enum str w x)) = w_lists w /\ w_systems (snd (step enum str w x)) = w_systems w.
Proof. exact (reads enum str w x). Qed.
Print Assumptions C127_reads.
Example C127_reads_example : reading (Next 0) /\ reading (Show 0). Proof. split; exact I. Qed.

(** a system made from a list keeps that list; one made from an equation has a new list of its own;
    the attributes are those of the equations at that moment; a tuple is refused *)
Theorem C127_constructor enum str w name :
  (forall a w', step enum str w (New (ArgList a) name) = (Ok ADone, w') ->
     exists y L, has w' (List.length (w_systems w)) y L /\ y_list y = a /\ nth_error (w_lists w) a = Some L
       /\ pde_system enum L = Ok (y_attr y) /\ y_name y = name /\ w_lists w' = w_lists w) /\
  (forall q w', step enum str w (New (ArgEq q) name) = (Ok ADone, w') ->
     exists y, has w' (List.length (w_systems w)) y [q] /\ y_list y = List.length (w_lists w)
       /\ pde_system enum [q] = Ok (y_attr y) /\ y_name y = name) /\
  (forall l, step enum str w (New (ArgTuple l) name) = (Err AttributeError, w)).
Proof.
  split; [|split].
  - intros a w'. exact (new_list enum str w a name w').
  - intros q w'. exact (new_eq enum str w q name w').
  - reflexivity.
Qed.
Print Assumptions C127_constructor.
Example C127_constructor_example :
  (exists w', step id_ show_sx flow (New (ArgList 0) "again") = (Ok ADone, w'))
  /\ (exists w', step id_ show_sx flow (New (ArgEq tracer) "") = (Ok ADone, w'))
  /\ fst (step id_ show_sx flow (New (ArgTuple [tracer]) "")) = Err AttributeError.
Proof. split; [|split]; try (eexists; vm_compute; reflexivity). Qed.

(** whatever a program does, the attributes, the name and the text of a system stay what they were;
    its equations stay those of the same list unless the program assigns [equations] *)
Theorem C127_snapshot enum str w o y h : nth_error (w_systems w) o = Some y ->
  exists y', nth_error (w_systems (run enum str w h)) o = Some y' /\ y_attr y' = y_attr y /\ y_name y' = y_name y
    /\ fst (step enum str (run enum str w h) (Show o)) = fst (step enum str w (Show o))
    /\ (Forall (not_reassigned o) h -> y_list y' = y_list y).
Proof.
  intros H. destruct (run_system enum str h w o y H) as [y' [E [N [A R]]]].
  exists y'. split; [exact E|]. split; [exact A|]. split; [exact N|]. split.
  - cbn. rewrite E, H, N, A. reflexivity.
  - intros F. rewrite (R F). reflexivity.
Qed.
Print Assumptions C127_snapshot.
(** two systems with the same list have the same equations after any program that leaves them their list *)
Theorem C127_shared enum str w o1 o2 y1 y2 h :
  nth_error (w_systems w) o1 = Some y1 -> nth_error (w_systems w) o2 = Some y2 -> y_list y1 = y_list y2 ->
  Forall (not_reassigned o1) h -> Forall (not_reassigned o2) h ->
  forall k, fst (step enum str (run enum str w h) (Item o1 k)) = fst (step enum str (run enum str w h) (Item o2 k)).
Proof.
  intros H1 H2 Y F1 F2 k.
  destruct (run_system enum str h w o1 y1 H1) as [z1 [E1 [_ [_ R1]]]].
  destruct (run_system enum str h w o2 y2 H2) as [z2 [E2 [_ [_ R2]]]].
  specialize (R1 F1). specialize (R2 F2). subst z1 z2. cbn. rewrite E1, E2, Y. reflexivity.
Qed.
Print Assumptions C127_shared.
Example C127_shared_example :
  let w := run id_ show_sx flow [New (ArgList 0) "twin"; Append 0 tracer] in
  fst (step id_ show_sx w (Item 0 (-1))) = Ok (AEq tracer) /\ fst (step id_ show_sx w (Item 1 (-1))) = Ok (AEq tracer).
Proof. cbv zeta. split; vm_compute; reflexivity. Qed.

(** the attributes are those of the current equations as long as the list is left alone *)
Theorem C127_attributes enum str w a name w' h :
  step enum str w (New (ArgList a) name) = (Ok ADone, w') -> Forall (undisturbed a (List.length (w_systems w))) h ->
  exists y L, has (run enum str w' h) (List.length (w_systems w)) y L /\ nth_error (w_lists w) a = Some L
    /\ pde_system enum L = Ok (y_attr y).
Proof.
  intros H F. destruct (new_list enum str w a name w' H) as [y [L [X [A [N [P _]]]]]]. subst a.
  exists y, L. split; [exact (run_has enum str h w' _ y L X F)|]. split; assumption.
Qed.
Print Assumptions C127_attributes.
Example C127_attributes_example :
  (exists w', step id_ show_sx (mkW [burgers] [] []) (New (ArgList 0) "flow") = (Ok ADone, w'))
  /\ Forall (undisturbed 0 0) [NewList [tracer]; Append 1 tracer; Iter 0; Next 0].
Proof. split; [eexists; vm_compute; reflexivity|]. repeat constructor; discriminate. Qed.
(** .. and no longer once it is changed: an equation of the system has a function that is neither
    prognostic, constant nor exogenous *)
Theorem C127_attributes_refuted : exists h o y L q f,
  has (run id_ show_sx empty_world h) o y L /\ In q L /\ a_function f /\ occurs f [q]
  /\ ~ In f (s_functions (y_attr y)) /\ ~ In f (s_prognostic (y_attr y)) /\ ~ In f (s_constant (y_attr y)) /\ ~ In f (s_exogenous (y_attr y)).
Proof.
  exists [NewList burgers; New (ArgList 0) "flow"; Append 0 tracer], 0. eexists. exists (burgers ++ [tracer]), tracer, v_.
  split; [split; vm_compute; reflexivity|].
  split; [right; left; reflexivity|]. split; [left; eexists; eexists; reflexivity|]. split.
  - exists (fst tracer), (snd tracer). split; [left; reflexivity|]. left. cbn. auto.
  - repeat split; intros X; vm_compute in X; repeat (destruct X as [X|X]; [discriminate X|]); exact X.
Qed.
Print Assumptions C127_attributes_refuted.

(** the text, line by line: prognostic functions in their order, the other functions and the constants in some
    order, constants and trainable scalars under their cleaned names, trainable scalars only when there are some *)
Theorem C127_text enum str (E : forall l, Permutation (enum l) l) (N : forall e, one_line (str e)) w o y :
  nth_error (w_systems w) o = Some y -> one_line (y_name y) ->
  exists text c x k r,
    step enum str w (Show o) = (Ok (AText text), w)
    /\ Permutation c (s_constant (y_attr y)) /\ Permutation x (s_exogenous (y_attr y))
    /\ Permutation k (s_constants (y_attr y)) /\ Permutation r (s_trainable (y_attr y))
    /\ lines text =
      [(if String.eqb (y_name y) "" then "PDE System :" else "PDE System '" ++ y_name y ++ "':")%string;
       ("        prognostic functions : " ++ listed ", " (map str (s_prognostic (y_attr y))))%string;
       ("        constant functions   : " ++ listed ", " (map str c))%string;
       ("        exogeneous functions : " ++ listed ", " (map str x))%string;
       ("        constants            : " ++ listed ", " (map (fun s => norm (str s)) k))%string;
       "        "] ++
      match r with
      | [] => []
      | _ => [("        trainable scalars    : " ++ listed "," (map (fun s => norm (str s)) r))%string; "            "]
      end.
Proof.
  intros H O. exists (show enum str (y_name y) (y_attr y)), (enum (s_constant (y_attr y))), (enum (s_exogenous (y_attr y))),
    (enum (s_constants (y_attr y))), (enum (s_trainable (y_attr y))).
  split; [cbn; rewrite H; reflexivity|]. do 4 (split; [apply E|]).
  rewrite (show_lines enum str N _ _ O). f_equal.
  pose proof (E (s_trainable (y_attr y))) as P. destruct (s_trainable (y_attr y)) as [|z zs].
  - apply Permutation_sym, Permutation_nil in P. rewrite P. reflexivity.
  - destruct (enum (z :: zs)); [apply Permutation_nil in P; discriminate P|]. reflexivity.
Qed.
Print Assumptions C127_text.
(** every function of the equations that the system was made from stands in one of the three lines of functions *)
Theorem C127_text_functions enum str (E : forall l, Permutation (enum l) l) (N : forall e, one_line (str e)) w o y L text :
  has w o y L -> pde_system enum L = Ok (y_attr y) -> one_line (y_name y) -> fst (step enum str w (Show o)) = Ok (AText text) ->
  forall f, a_function f -> occurs f L -> exists l, In l (firstn 3 (tl (lines text))) /\ infix (str f) l.
Proof.
  intros [H _] P O. cbn. rewrite H. cbn. intros T. injection T as <-. exact (shown_function enum str E N L (y_attr y) (y_name y) O P).
Qed.
Print Assumptions C127_text_functions.
Example C127_text_example :
  (exists y, has flow 0 y burgers /\ pde_system id_ burgers = Ok (y_attr y) /\ one_line (y_name y))
  /\ exists text, fst (step id_ show_sx flow (Show 0)) = Ok (AText text)
  /\ lines text = ["PDE System 'flow':"; "        prognostic functions : u"; "        constant functions   : h";
       "        exogeneous functions : F"; "        constants            : kappa"; "        ";
       "        trainable scalars    : a"; "            "].
Proof.
  split.
  - eexists. split; [split; vm_compute; reflexivity|]. split; vm_compute; reflexivity.
  - eexists. split; vm_compute; reflexivity.
Qed.

(** two systems with different constants can have the same text, however functions are printed *)
Theorem C127_text_refuted : forall str, (forall k s, str (SSym k s) = s) ->
  exists l1 l2 S1 S2, pde_system id_ l1 = Ok S1 /\ pde_system id_ l2 = Ok S2
    /\ (exists c, In c (s_constants S1) /\ ~ In c (s_constants S2))
    /\ show id_ str "" S1 = show id_ str "" S2.
Proof.
  intros str H.
  set (eqs := fun c => [(SDer u_ [("t", 1)], SMul [SSym Plain c; u_])]).
  set (sys := fun c => {| s_functions := [u_]; s_prognostic := [u_]; s_constant := []; s_exogenous := [];
     s_coordinates := [time; x_]; s_spatial := [x_]; s_trainable := []; s_constants := [SSym Plain c]; s_derivatives := []; s_max_order := 0 |}).
  exists (eqs "k^2"), (eqs "k_2"), (sys "k^2"), (sys "k_2").
  split; [vm_compute; reflexivity|]. split; [vm_compute; reflexivity|]. split.
  - exists (SSym Plain "k^2"). split; [left; reflexivity|]. intros [X|[]]. discriminate X.
  - unfold show. cbn [s_constants s_trainable s_prognostic s_exogenous s_constant sys map]. rewrite !H. reflexivity.
Qed.
Print Assumptions C127_text_refuted.
Example C127_text_refuted_example : forall k s, show_sx (SSym k s) = s. Proof. reflexivity. Qed.
