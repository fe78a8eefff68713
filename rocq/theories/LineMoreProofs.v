(** The generated trends of the 1D advection and of the Kuramoto-Sivashinsky equation on a periodic line. *)
From Coq Require Import List Arith ZArith Bool Reals QArith Qreals String Lia Lra Permutation FunctionalExtensionality.
From Verif Require Import PyBase PyBaseFacts Scalars FieldFacts SymModel RandomProofs PDEModel StrModel CodegenModel CodegenSpec CodegenProofs CodegenRun CodegenProps
  FDExprModel FDExprSpec FDExprProofs FDSpec FDReal GridModel GridSpec GridMore ConsistSpec ConsistModel ConsistProofs ConsistMain LineModel LineSpec LineProofs
  LineMoreModel LineMoreSpec.
Import ListNotations.
Close Scope Q_scope.
Open Scope nat_scope.
Open Scope string_scope.
Open Scope list_scope.

Definition kuramoto_S : pdes :=
  {| s_functions := [line_u]; s_prognostic := [line_u]; s_constant := []; s_exogenous := [];
     s_coordinates := [time; SSym Plain "x"]; s_spatial := [SSym Plain "x"]; s_trainable := [];
     s_constants := [line_kappa; line_eta];
     s_derivatives := [SDer line_u [("x", 1)]; SDer line_u [("x", 2)]; SDer line_u [("x", 4)]]; s_max_order := 4 |}.
Definition advection_S : pdes :=
  {| s_functions := [line_wind; line_c]; s_prognostic := [line_c]; s_constant := [line_wind]; s_exogenous := [];
     s_coordinates := [time; SSym Plain "x"]; s_spatial := [SSym Plain "x"]; s_trainable := [];
     s_constants := [];
     s_derivatives := [SDer line_c [("x", 1)]]; s_max_order := 1 |}.

Section Systems.
  Variable enum : list sx -> list sx.
  Hypothesis E : forall l, Permutation (enum l) l.
  Lemma enum_1 a : enum [a] = [a].
  Proof. apply Permutation_length_1_inv, Permutation_sym, E. Qed.

  Lemma kuramoto_ok : pde_system enum kuramoto = Ok kuramoto_S.
  Proof.
    set (base := [SDer line_u [("t", 1)]; SDer line_u [("x", 1)]; SDer line_u [("x", 2)]; SDer line_u [("x", 4)]]).
    set (pick := fun d => if sx_eq_dec d (SDer line_u [("t", 1)]) then [line_u] else []).
    assert (F : forall l acc, (forall d, In d l -> In d base) ->
      foldM (fun acc d => bind (first_variable d) (fun v => if String.eqb v "t" then
               match d with SDer f _ => Ok (acc ++ [f]) | _ => Ok acc end else Ok acc)) acc l = Ok (acc ++ flat_map pick l)).
    { induction l as [|d l IH]; intros acc Hl; [cbn; rewrite app_nil_r; reflexivity|].
      assert (Hd : In d base) by (apply Hl; left; auto). cbn [foldM flat_map].
      assert (Step : bind (first_variable d) (fun v => if String.eqb v "t" then
               match d with SDer f _ => Ok (acc ++ [f]) | _ => Ok acc end else Ok acc) = Ok (acc ++ pick d)).
      { cbn in Hd; repeat (destruct Hd as [<-|Hd]; [cbn; rewrite ?app_nil_r; reflexivity|]); destruct Hd. }
      rewrite Step. cbn [bind]. rewrite IH by (intros; apply Hl; right; auto). rewrite app_assoc. reflexivity. }
    assert (D : exists q, kuramoto = [q] /\ eq_atoms is_derivative q = base) by (eexists; split; reflexivity).
    assert (G : get_prognostic enum kuramoto = Ok [line_u]).
    { destruct D as (q & -> & D). unfold get_prognostic. cbn [mapM]. unfold prognostic_of. rewrite D, F.
      2:{ intros d Hd. eapply Permutation_in; [apply E|exact Hd]. }
      assert (P : Permutation (flat_map pick (enum base)) [line_u]).
      { transitivity (flat_map pick base); [apply Permutation_flat_map; apply E|]. reflexivity. }
      apply Permutation_sym, Permutation_length_1_inv in P. rewrite P. reflexivity. }
    unfold pde_system, get_constant. rewrite G. cbn [bind].
    replace (difference (get_functions kuramoto) [line_u]) with (@nil sx) by (vm_compute; reflexivity).
    rewrite (enum_nil enum E). vm_compute. reflexivity.
  Qed.

  Lemma line_advection_ok : pde_system enum line_advection = Ok advection_S.
  Proof.
    unfold pde_system, get_prognostic. cbn [mapM line_advection].
    assert (D : eq_atoms is_derivative (SDer line_c [("t", 1)], SMul [SNum (-1); line_wind; SDer line_c [("x", 1)]])
       = [SDer line_c [("t", 1)]; SDer line_c [("x", 1)]]) by (vm_compute; reflexivity).
    unfold prognostic_of. rewrite D.
    pose proof (E [SDer line_c [("t", 1)]; SDer line_c [("x", 1)]]) as P.
    apply Permutation_sym, Permutation_length_2_inv in P.
    unfold get_constant.
    assert (R : foldM (fun acc d => c <- first_variable d ;;
                        if String.eqb c "t" then
                          match d with SDer f _ => Ok (acc ++ [f]) | _ => Ok acc end
                        else Ok acc) [] (enum [SDer line_c [("t", 1)]; SDer line_c [("x", 1)]]) = Ok [line_c]).
    { destruct P as [->| ->]; vm_compute; reflexivity. }
    rewrite R. cbn [bind List.concat app].
    replace (difference (get_functions line_advection) [line_c]) with [line_wind] by (vm_compute; reflexivity).
    rewrite enum_1. vm_compute. reflexivity.
  Qed.

  Lemma line_advection_program : trend_program enum advection_S line_advection =
    Ok [AliasD "du" 0; AliasS "u" 0; Attr "u" "u"; Diff "Du_x_o1" "u" [("x", 1)];
        Store "du" (SMul [SNum (-1); SSym FunSym "u"; SSym FunSym "Du_x_o1"])].
  Proof.
    unfold trend_program, pseudo_system, advection_S.
    cbn [s_functions s_prognostic s_constant s_exogenous s_constants s_derivatives s_max_order].
    assert (F : enum [line_wind; line_c] = [line_wind; line_c] \/ enum [line_wind; line_c] = [line_c; line_wind]).
    { apply Permutation_length_2_inv, Permutation_sym, E. }
    cbn [mapM line_advection].
    destruct F as [F|F].
    all: match goal with |- bind ?x _ = _ => assert (X : x = Ok [(SDer line_c [("t", 1)],
        SMul [SNum (-1); SSym FunSym "u"; SSym FunSym "Du_x_o1"])]) end.
    1,3: unfold pseudo_equation, subs_derivatives, subs_functions, subs_constants; cbn [s_functions s_constants s_derivatives s_max_order];
       rewrite F, ?enum_1, ?(enum_nil enum E); vm_compute; reflexivity.
    all: rewrite X, !enum_1, !(enum_nil enum E); vm_compute; reflexivity.
  Qed.
End Systems.

Lemma kuramoto_translatable : translatable kuramoto_S kuramoto.
Proof.
  pose proof args_line as A1; split;
  [reflexivity
  |intros f [<-|[]]; do 2 eexists; split; [reflexivity|auto]
  |intros q [<-|[]]; cbn [snd]; unfold line_u, line_kappa, line_eta;
   repeat first [apply Forall_nil | apply Forall_cons | apply flat_add | apply flat_mul
                   | apply flat_num | apply flat_sym; simpl; now auto | apply flat_app; assumption
                   | apply flat_der; [assumption|discriminate|repeat constructor; intros []
                                     |intros [?|[]]; discriminate|intros p [<-|[]]; discriminate]]
  |intros c [<-|[<-|[]]]; unfold line_kappa, line_eta; eauto
  | | |].
  - intros g v w [H|[H|[H|[]]]] [H'|[H'|[H'|[]]]] C; injection H as <- <-; injection H' as <-; auto;
        specialize (C "x"); discriminate.
  - vm_compute. repeat constructor; simpl; intuition discriminate.
  - intros x Hx Hr. vm_compute in Hx. simpl in Hr. intuition (subst; discriminate).
Qed.

Open Scope R_scope.
(** the centred fourth difference *)
Definition d4 (n : nat) (h : R) (U : nat -> R) (j : nat) : R :=
  (U (shift n 2 j) - 4 * U (shift n 1 j) + 6 * U j - 4 * U (shift n (-1) j) + U (shift n (-2) j)) / h ^ 4.
Lemma stencil_4 n h (a : list nat -> R) (dx : nat -> R) j : dx O = h -> h <> 0 -> (j < n)%nat ->
  tval RF (fun d => a (wrap [n] d [j])) (tensor RF dx [0%Z] [(O, 4%nat)]) = d4 n h (fun j => a [j]) j.
Proof.
  intros E N H. unfold tensor, tval. rewrite E.
  transitivity ((a [shift n 2 j] - 4 * a [shift n 1 j] + 6 * a [shift n 0 j] - 4 * a [shift n (-1) j] + a [shift n (-2) j]) / h ^ 4);
    [|unfold d4; rewrite shift_0 by auto; reflexivity].
  cbn -[shift Z.modulo Z.add Z.to_nat Z.of_nat Rmult Rplus Rinv Rdiv].
  fold (shift n (0 + (Z.of_nat 0 - Z.of_nat 4 / 2)) j) (shift n (0 + (Z.of_nat 1 - Z.of_nat 4 / 2)) j)
    (shift n (0 + (Z.of_nat 2 - Z.of_nat 4 / 2)) j) (shift n (0 + (Z.of_nat 3 - Z.of_nat 4 / 2)) j) (shift n (0 + (Z.of_nat 4 - Z.of_nat 4 / 2)) j).
  change (0 + (Z.of_nat 0 - Z.of_nat 4 / 2))%Z with (-2)%Z. change (0 + (Z.of_nat 1 - Z.of_nat 4 / 2))%Z with (-1)%Z.
  change (0 + (Z.of_nat 2 - Z.of_nat 4 / 2))%Z with 0%Z. change (0 + (Z.of_nat 3 - Z.of_nat 4 / 2))%Z with 1%Z.
  change (0 + (Z.of_nat 4 - Z.of_nat 4 / 2))%Z with 2%Z. field. auto.
Qed.

Section Kuramoto.
  Variables (L kappa eta : R) (n : nat) (enum : list sx -> list sx) (x : nat -> R) (ord : list datom -> list datom).
  Variables (rpow : R -> R -> R) (g : @grid RF) (caches : R -> list (string * nat) -> (list nat -> R) -> cache).
  Variable attr : string -> res (list nat -> R).
  Hypothesis KC : kuramoto_class L kappa eta n enum ord g caches attr.
  Hypothesis PL : 0 < L.
  Notation trend := (generated_trend enum x ord rpow ["x"] g caches attr).
  Let LC : line_class L kappa n enum ord g caches attr := proj1 KC.

  Lemma code_4 t (a : list nat -> R) : exists b, @derivative_code RF x ord ["x"] g (caches t [("x", 4%nat)] a) [("x", 4%nat)] a = Ok b /\
      forall j, (j < n)%nat -> b [j] = d4 n (mesh L n) (fun j => a [j]) j.
  Proof.
    destruct (line_code L kappa n enum x ord g caches attr LC PL t [("x", 4%nat)] [(O, 4%nat)] a eq_refl) as (b & E & H). exists b. split; [exact E|].
    intros j Hj. rewrite H by auto. apply stencil_4; auto; [exact (line_spacing L kappa n enum ord g caches attr LC)|].
    pose proof (mesh_pos L kappa n enum ord g caches attr LC PL). lra.
  Qed.

  Theorem kuramoto_trend t state : exists r, trend kuramoto t state = Ok r /\
    forall j, (j < n)%nat -> at0 r j = - at0 state j * d1 n (mesh L n) (at0 state) j - kappa * d2 n (mesh L n) (at0 state) j
      - eta * d4 n (mesh L n) (at0 state) j.
  Proof.
    destruct (code_1 L kappa n enum x ord g caches attr LC PL t (row state O)) as (b1 & B1 & H1).
    destruct (code_2 L kappa n enum x ord g caches attr LC PL t (row state O)) as (b2 & B2 & H2).
    destruct (code_4 t (row state O)) as (b4 & B4 & H4).
    destruct (C29_rows (list nat -> R) a_num a_add a_mul (a_pow rpow) (fun _ => 0) (fun _ => 1)
      (fun v a => @derivative_code RF x ord ["x"] g (caches t v a) v a) attr None
      (fun _ => row state O) (fun c _ => if sx_eq_dec c line_eta then eta else kappa) (fun v _ => match v with [(_, 1%nat)] => b1 | [(_, 2%nat)] => b2 | _ => b4 end)
      enum (lc_enum _ _ _ _ _ _ _ _ LC) kuramoto kuramoto_S [row state O]
      (kuramoto_ok enum (lc_enum _ _ _ _ _ _ _ _ LC)) kuramoto_translatable) as (prog & E1 & E2).
    { split.
      - reflexivity.
      - intros f [].
      - intros c [<-|[<-|[]]]; [exact (lc_kappa _ _ _ _ _ _ _ _ LC)|exact (proj2 KC)].
      - intros N. exfalso. apply N. reflexivity.
      - intros f v [Hd|[Hd|[Hd|[]]]]; injection Hd as <- <-; [exact B1|exact B2|exact B4]. }
    unfold generated_trend. rewrite (kuramoto_ok enum (lc_enum _ _ _ _ _ _ _ _ LC)). cbn [bind].
    rewrite E1. cbn [bind]. change (map (row state) (seq 0 (List.length (s_prognostic kuramoto_S)))) with [row state O].
    rewrite E2. cbn [bind]. eexists. split; [reflexivity|]. intros j Hj.
    unfold at0 at 1. cbn [fst stack map nth kuramoto].
    change (fun j : nat => row state 0 [j]) with (at0 state) in H1, H2, H4.
    rewrite <- H1, <- H2, <- H4 by auto. cbn. unfold a_mul, a_add, a_num, Q2R. cbn. unfold at0, row.
    rewrite Rinv_1. ring.
  Qed.
End Kuramoto.

Section Wind.
  Variables (L : R) (wind : list nat -> R) (n : nat) (enum : list sx -> list sx) (x : nat -> R) (ord : list datom -> list datom).
  Variables (rpow : R -> R -> R) (g : @grid RF) (caches : R -> list (string * nat) -> (list nat -> R) -> cache).
  Variable attr : string -> res (list nat -> R).
  Hypothesis WC : wind_class L wind n enum ord g caches attr.
  Hypothesis PL : 0 < L.

  Theorem wind_trend t state : exists r, generated_trend enum x ord rpow ["x"] g caches attr line_advection t state = Ok r /\
    forall j, (j < n)%nat -> at0 r j = - wind [j] * d1 n (mesh L n) (fun j => wind [j]) j.
  Proof.
    destruct WC as [W1 W2 W3 W4 W5].
    assert (LC : line_class L 0 n enum ord g caches (fun _ => Ok (fun _ => 0))) by (split; auto).
    destruct (code_1 L 0 n enum x ord g caches (fun _ => Ok (fun _ => 0)) LC PL t wind) as (b1 & B1 & H1).
    unfold generated_trend. rewrite (line_advection_ok enum W1). cbn [bind]. rewrite (line_advection_program enum W1). cbn [bind].
    change (map (row state) (seq 0 (List.length (s_prognostic advection_S)))) with [row state O].
    unfold run_trend. cbn -[derivative_code a_num a_mul a_add]. rewrite W5. cbn -[derivative_code a_num a_mul a_add]. 
    rewrite B1. cbn -[a_num a_mul a_add]. eexists. split; [reflexivity|]. intros j Hj. unfold at0. cbn. rewrite <- H1 by auto.
    unfold a_mul, a_num, Q2R. cbn. rewrite Rinv_1. ring.
  Qed.
End Wind.
