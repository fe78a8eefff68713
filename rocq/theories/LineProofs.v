(** The generated trends of the diffusion and of Burgers' equation on a periodic line. *)
From Coq Require Import List Arith ZArith Bool Reals QArith Qreals String Lia Lra Permutation FunctionalExtensionality.
From Verif Require Import PyBase PyBaseFacts Scalars FieldFacts SymModel RandomProofs PDEModel StrModel CodegenModel CodegenSpec CodegenProofs CodegenRun CodegenProps
  FDExprModel FDExprSpec FDExprProofs FDSpec FDReal GridModel GridSpec GridMore ConsistSpec ConsistModel ConsistProofs ConsistMain LineModel LineSpec.
Import ListNotations.
Close Scope Q_scope.
Open Scope nat_scope.
Open Scope string_scope.
Open Scope list_scope.

Lemma perm3 {A} (l : list A) a b c : Permutation l [a; b; c] ->
  In l [[a;b;c];[a;c;b];[b;a;c];[b;c;a];[c;a;b];[c;b;a]].
Proof.
  intros P. pose proof (Permutation_length P) as L.
  destruct l as [|x [|y [|z [|]]]]; try discriminate L.
  assert (X : In x [a;b;c]) by (apply (Permutation_in _ P); left; auto).
  destruct X as [<-|[<-|[<-|[]]]].
  - apply Permutation_cons_inv in P. apply Permutation_length_2_inv in P.
    destruct P as [E|E]; injection E as <- <-; simpl; tauto.
  - assert (Q : Permutation [y; z] [a; c]).
    { apply (Permutation_cons_inv (a := b)). rewrite P. apply perm_swap. }
    apply Permutation_length_2_inv in Q. destruct Q as [E|E]; injection E as <- <-; simpl; tauto.
  - assert (Q : Permutation [y; z] [a; b]).
    { apply (Permutation_cons_inv (a := c)). rewrite P. apply Permutation_sym, (Permutation_cons_append [a; b] c). }
    apply Permutation_length_2_inv in Q. destruct Q as [E|E]; injection E as <- <-; simpl; tauto.
Qed.

Definition burgers_S : pdes :=
  {| s_functions := [line_u]; s_prognostic := [line_u]; s_constant := []; s_exogenous := [];
     s_coordinates := [time; SSym Plain "x"]; s_spatial := [SSym Plain "x"]; s_trainable := [];
     s_constants := [line_kappa];
     s_derivatives := [SDer line_u [("x", 1)]; SDer line_u [("x", 2)]]; s_max_order := 2 |}.
Definition diffusion_S : pdes :=
  {| s_functions := [line_u]; s_prognostic := [line_u]; s_constant := []; s_exogenous := [];
     s_coordinates := [time; SSym Plain "x"]; s_spatial := [SSym Plain "x"]; s_trainable := [];
     s_constants := [line_kappa];
     s_derivatives := [SDer line_u [("x", 2)]]; s_max_order := 2 |}.

Section Systems.
  Variable enum : list sx -> list sx.
  Hypothesis E : forall l, Permutation (enum l) l.
  Lemma enum_nil : enum [] = [].
  Proof. apply Permutation_nil, Permutation_sym, E. Qed.

  Lemma burgers_ok : pde_system enum burgers = Ok burgers_S.
  Proof.
    unfold pde_system, get_prognostic. cbn [mapM burgers].
    assert (D : eq_atoms is_derivative (SDer line_u [("t", 1)],
       SAdd [SMul [SNum (-1); line_u; SDer line_u [("x", 1)]]; SMul [line_kappa; SDer line_u [("x", 2)]]])
       = [SDer line_u [("t", 1)]; SDer line_u [("x", 1)]; SDer line_u [("x", 2)]]) by (vm_compute; reflexivity).
    unfold prognostic_of. rewrite D.
    pose proof (perm3 _ _ _ _ (E [SDer line_u [("t", 1)]; SDer line_u [("x", 1)]; SDer line_u [("x", 2)]])) as P.
    unfold get_constant.
    assert (R : forall l, In l [[SDer line_u [("t", 1)]; SDer line_u [("x", 1)]; SDer line_u [("x", 2)]];
       [SDer line_u [("t", 1)]; SDer line_u [("x", 2)]; SDer line_u [("x", 1)]];
       [SDer line_u [("x", 1)]; SDer line_u [("t", 1)]; SDer line_u [("x", 2)]];
       [SDer line_u [("x", 1)]; SDer line_u [("x", 2)]; SDer line_u [("t", 1)]];
       [SDer line_u [("x", 2)]; SDer line_u [("t", 1)]; SDer line_u [("x", 1)]];
       [SDer line_u [("x", 2)]; SDer line_u [("x", 1)]; SDer line_u [("t", 1)]]] ->
       foldM (fun acc d => c <- first_variable d ;;
                        if String.eqb c "t" then
                          match d with SDer f _ => Ok (acc ++ [f]) | _ => Ok acc end
                        else Ok acc) [] l = Ok [line_u]).
    { intros l H. repeat (destruct H as [<-|H]; [vm_compute; reflexivity|]). destruct H. }
    rewrite (R _ P). cbn [bind List.concat app].
    replace (difference (get_functions burgers) [line_u]) with (@nil sx) by (vm_compute; reflexivity).
    rewrite enum_nil. vm_compute. reflexivity.
  Qed.

  Lemma diffusion_ok : pde_system enum diffusion = Ok diffusion_S.
  Proof.
    unfold pde_system, get_prognostic. cbn [mapM diffusion].
    assert (D : eq_atoms is_derivative (SDer line_u [("t", 1)], SMul [line_kappa; SDer line_u [("x", 2)]])
       = [SDer line_u [("t", 1)]; SDer line_u [("x", 2)]]) by (vm_compute; reflexivity).
    unfold prognostic_of. rewrite D.
    pose proof (E [SDer line_u [("t", 1)]; SDer line_u [("x", 2)]]) as P.
    apply Permutation_sym, Permutation_length_2_inv in P.
    unfold get_constant.
    assert (R : foldM (fun acc d => c <- first_variable d ;;
                        if String.eqb c "t" then
                          match d with SDer f _ => Ok (acc ++ [f]) | _ => Ok acc end
                        else Ok acc) [] (enum [SDer line_u [("t", 1)]; SDer line_u [("x", 2)]]) = Ok [line_u]).
    { destruct P as [->| ->]; vm_compute; reflexivity. }
    rewrite R. cbn [bind List.concat app].
    replace (difference (get_functions diffusion) [line_u]) with (@nil sx) by (vm_compute; reflexivity).
    rewrite enum_nil. vm_compute. reflexivity.
  Qed.
End Systems.

Lemma args_line : simple_args [time; SSym Plain "x"].
Proof. intros y Hy; simpl in Hy; intuition (subst; auto). Qed.

Ltac translatable_tac := pose proof args_line as A1; split;
  [reflexivity
  |intros f [<-|[]]; do 2 eexists; split; [reflexivity|auto]
  |intros q [<-|[]]; cbn [snd]; unfold line_u, line_kappa;
   repeat first [apply Forall_nil | apply Forall_cons | apply flat_add | apply flat_mul
                   | apply flat_num | apply flat_sym; simpl; now auto | apply flat_app; assumption
                   | apply flat_der; [assumption|discriminate|repeat constructor; intros []
                                     |intros [?|[]]; discriminate|intros p [<-|[]]; discriminate]]
  |intros c [<-|[]]; unfold line_kappa; eauto
  | | |].

Lemma burgers_translatable : translatable burgers_S burgers.
Proof.
  translatable_tac.
  - intros g v w [H|[H|[]]] [H'|[H'|[]]] C; injection H as <- <-; injection H' as <-; auto;
        specialize (C "x"); discriminate.
  - vm_compute. repeat constructor; simpl; intuition discriminate.
  - intros x Hx Hr. vm_compute in Hx. simpl in Hr. intuition (subst; discriminate).
Qed.
Lemma diffusion_translatable : translatable diffusion_S diffusion.
Proof.
  translatable_tac.
  - intros g v w [H|[]] [H'|[]] C; injection H as <- <-; injection H' as <-; auto.
  - vm_compute. repeat constructor; simpl; intuition discriminate.
  - intros x Hx Hr. vm_compute in Hx. simpl in Hr. intuition (subst; discriminate).
Qed.

Open Scope R_scope.
Definition shift (n : nat) (s : Z) (j : nat) : nat := Z.to_nat ((Z.of_nat j + s) mod Z.of_nat n).
Definition at0 (state : list nat -> R) (j : nat) : R := state [O; j].
Definition d1 (n : nat) (h : R) (U : nat -> R) (j : nat) : R := (U (shift n 1 j) - U (shift n (-1) j)) / (2 * h).
Definition d2 (n : nat) (h : R) (U : nat -> R) (j : nat) : R := (U (shift n 1 j) - 2 * U j + U (shift n (-1) j)) / h ^ 2.

Lemma shift_lt n s j : (j < n)%nat -> (shift n s j < n)%nat.
Proof. intros H. unfold shift. pose proof (Z.mod_pos_bound (Z.of_nat j + s) (Z.of_nat n) ltac:(lia)). lia. Qed.
Lemma shift_0 n j : (j < n)%nat -> shift n 0 j = j.
Proof. intros H. unfold shift. rewrite Z.add_0_r, Z.mod_small by lia. lia. Qed.
Lemma stencil_1 n h (a : list nat -> R) (dx : nat -> R) j : dx O = h -> h <> 0 -> (j < n)%nat ->
  tval RF (fun d => a (wrap [n] d [j])) (tensor RF dx [0%Z] [(O, 1%nat)]) = d1 n h (fun j => a [j]) j.
Proof.
  intros E N H. unfold tensor, tval, d1. rewrite E.
  cbn -[shift Z.modulo Z.add Z.to_nat Z.of_nat Rmult Rplus Rinv Rdiv].
  change (- (1) * 1 * (1 + 0) / ((1 + 1) * h * 1) * 1 * a [shift n (-1) j] +
   (1 * (1 + 0) / ((1 + 1) * h * 1) * 1 * a [shift n 1 j] + 0) = (a [shift n 1 j] - a [shift n (-1) j]) / (2 * h)).
  field. auto.
Qed.
Lemma stencil_2 n h (a : list nat -> R) (dx : nat -> R) j : dx O = h -> h <> 0 -> (j < n)%nat ->
  tval RF (fun d => a (wrap [n] d [j])) (tensor RF dx [0%Z] [(O, 2%nat)]) = d2 n h (fun j => a [j]) j.
Proof.
  intros E N H. unfold tensor, tval. rewrite E.
  transitivity ((a [shift n 1 j] - 2 * a [shift n 0 j] + a [shift n (-1) j]) / h ^ 2); [|unfold d2; rewrite shift_0 by auto; reflexivity].
  cbn -[shift Z.modulo Z.add Z.to_nat Z.of_nat Rmult Rplus Rinv Rdiv].
  fold (shift n (0 + (Z.of_nat 0 - Z.of_nat 2 / 2)) j) (shift n (0 + (Z.of_nat 1 - Z.of_nat 2 / 2)) j)
    (shift n (0 + (Z.of_nat 2 - Z.of_nat 2 / 2)) j).
  change (0 + (Z.of_nat 0 - Z.of_nat 2 / 2))%Z with (-1)%Z. change (0 + (Z.of_nat 1 - Z.of_nat 2 / 2))%Z with 0%Z.
  change (0 + (Z.of_nat 2 - Z.of_nat 2 / 2))%Z with 1%Z. field. auto.
Qed.

Section Trend.
  Variables (L kappa : R) (n : nat) (enum : list sx -> list sx) (x : nat -> R) (ord : list datom -> list datom).
  Variables (rpow : R -> R -> R) (g : @grid RF) (caches : R -> list (string * nat) -> (list nat -> R) -> cache).
  Variable attr : string -> res (list nat -> R).
  Hypothesis LC : line_class L kappa n enum ord g caches attr.
  Hypothesis PL : 0 < L.
  Notation trend := (generated_trend enum x ord rpow ["x"] g caches attr).

  Lemma n_pos : (0 < n)%nat.
  Proof.
    destruct (@grid_shape_valid RF ["x"] [L] [n] g eq_refl (lc_grid _ _ _ _ _ _ _ _ LC)) as [_ H].
    pose proof (H n (or_introl eq_refl)). lia.
  Qed.
  Lemma mesh_pos : 0 < mesh L n.
  Proof. unfold mesh. apply Rdiv_lt_0_compat; auto. apply (lt_INR 0). exact n_pos. Qed.
  Lemma line_spacing : @spacing RF g O = mesh L n.
  Proof.
    assert (ND : NoDup ["x"]) by (repeat constructor; intros []).
    pose proof (lc_grid _ _ _ _ _ _ _ _ LC) as Hg.
    destruct (grid_valid ["x"] [L] eq_refl [n] g Hg) as [Ls Hn].
    destruct (grid_spacings ["x"] [L] ND eq_refl [n] g Hg Ls Hn) as [_ Ed].
    unfold spacing. rewrite Ed. reflexivity.
  Qed.

  Lemma line_code t v ds (a : list nat -> R) : variables ["x"] v = Ok ds ->
    exists b, @derivative_code RF x ord ["x"] g (caches t v a) v a = Ok b /\
      forall j, (j < n)%nat -> b [j] = tval RF (fun d => a (wrap [n] d [j])) (tensor RF (@spacing RF g) [0%Z] ds).
  Proof.
    intros Hv. destruct (lc_caches _ _ _ _ _ _ _ _ LC t v a) as (hist & Hh).
    destruct (code_is_shift ["x"] [L] ltac:(repeat constructor; intros []) eq_refl ltac:(intros l [<-|[]]; exact PL)
      x ord [n] g (caches t v a) hist v ds a (lc_ord _ _ _ _ _ _ _ _ LC) (lc_grid _ _ _ _ _ _ _ _ LC) Hh Hv) as (b & E & H).
    exists b. split; [exact E|]. intros j Hj. apply (H [j]). repeat constructor. exact Hj.
  Qed.
  Lemma code_1 t (a : list nat -> R) : exists b, @derivative_code RF x ord ["x"] g (caches t [("x", 1%nat)] a) [("x", 1%nat)] a = Ok b /\
      forall j, (j < n)%nat -> b [j] = d1 n (mesh L n) (fun j => a [j]) j.
  Proof.
    destruct (line_code t [("x", 1%nat)] [(O, 1%nat)] a eq_refl) as (b & E & H). exists b. split; [exact E|].
    intros j Hj. rewrite H by auto. apply stencil_1; auto; [apply line_spacing|]. pose proof mesh_pos. lra.
  Qed.
  Lemma code_2 t (a : list nat -> R) : exists b, @derivative_code RF x ord ["x"] g (caches t [("x", 2%nat)] a) [("x", 2%nat)] a = Ok b /\
      forall j, (j < n)%nat -> b [j] = d2 n (mesh L n) (fun j => a [j]) j.
  Proof.
    destruct (line_code t [("x", 2%nat)] [(O, 2%nat)] a eq_refl) as (b & E & H). exists b. split; [exact E|].
    intros j Hj. rewrite H by auto. apply stencil_2; auto; [apply line_spacing|]. pose proof mesh_pos. lra.
  Qed.

  Theorem diffusion_trend t state : exists r, trend diffusion t state = Ok r /\
    forall j, (j < n)%nat -> at0 r j = kappa * d2 n (mesh L n) (at0 state) j.
  Proof.
    destruct (code_2 t (row state O)) as (b & E & H).
    destruct (C29_rows (list nat -> R) a_num a_add a_mul (a_pow rpow) (fun _ => 0) (fun _ => 1)
      (fun v a => @derivative_code RF x ord ["x"] g (caches t v a) v a) attr None
      (fun _ => row state O) (fun _ _ => kappa) (fun _ _ => b) enum (lc_enum _ _ _ _ _ _ _ _ LC) diffusion diffusion_S [row state O]
      (diffusion_ok enum (lc_enum _ _ _ _ _ _ _ _ LC)) diffusion_translatable) as (prog & E1 & E2).
    { split.
      - reflexivity.
      - intros f [].
      - intros c [<-|[]]. exact (lc_kappa _ _ _ _ _ _ _ _ LC).
      - intros N. exfalso. apply N. reflexivity.
      - intros f v [Hd|[]]. injection Hd as <- <-. exact E. }
    unfold generated_trend. rewrite (diffusion_ok enum (lc_enum _ _ _ _ _ _ _ _ LC)). cbn [bind].
    rewrite E1. cbn [bind]. change (map (row state) (seq 0 (List.length (s_prognostic diffusion_S)))) with [row state O].
    rewrite E2. cbn [bind]. eexists. split; [reflexivity|]. intros j Hj.
    unfold at0. cbn [fst stack map nth diffusion]. change (fun j : nat => row state 0 [j]) with (at0 state) in H.
    rewrite <- H by auto. cbn. unfold a_mul. ring.
  Qed.

  Theorem burgers_trend t state : exists r, trend burgers t state = Ok r /\
    forall j, (j < n)%nat -> at0 r j = - at0 state j * d1 n (mesh L n) (at0 state) j + kappa * d2 n (mesh L n) (at0 state) j.
  Proof.
    destruct (code_1 t (row state O)) as (b1 & B1 & H1).
    destruct (code_2 t (row state O)) as (b2 & B2 & H2).
    destruct (C29_rows (list nat -> R) a_num a_add a_mul (a_pow rpow) (fun _ => 0) (fun _ => 1)
      (fun v a => @derivative_code RF x ord ["x"] g (caches t v a) v a) attr None
      (fun _ => row state O) (fun _ _ => kappa) (fun v _ => match v with [(_, 1%nat)] => b1 | _ => b2 end)
      enum (lc_enum _ _ _ _ _ _ _ _ LC) burgers burgers_S [row state O]
      (burgers_ok enum (lc_enum _ _ _ _ _ _ _ _ LC)) burgers_translatable) as (prog & E1 & E2).
    { split.
      - reflexivity.
      - intros f [].
      - intros c [<-|[]]. exact (lc_kappa _ _ _ _ _ _ _ _ LC).
      - intros N. exfalso. apply N. reflexivity.
      - intros f v [Hd|[Hd|[]]]; injection Hd as <- <-; [exact B1|exact B2]. }
    unfold generated_trend. rewrite (burgers_ok enum (lc_enum _ _ _ _ _ _ _ _ LC)). cbn [bind].
    rewrite E1. cbn [bind]. change (map (row state) (seq 0 (List.length (s_prognostic burgers_S)))) with [row state O].
    rewrite E2. cbn [bind]. eexists. split; [reflexivity|]. intros j Hj.
    unfold at0 at 1. cbn [fst stack map nth burgers].
    change (fun j : nat => row state 0 [j]) with (at0 state) in H1, H2.
    rewrite <- H1, <- H2 by auto. cbn. unfold a_mul, a_add, a_num, Q2R. cbn. unfold at0, row.
    rewrite Rinv_1. ring.
  Qed.
End Trend.
