(** The trend generated from advection_in_2D or advection_in_3D is the centred scheme. *)
From Coq Require Import List Arith ZArith Bool Reals QArith Qreals String Lia Lra Permutation FunctionalExtensionality.
From Verif Require Import PyBase PyBaseFacts Scalars FieldFacts SymModel RandomProofs PDEModel StrModel CodegenModel CodegenSpec CodegenProofs CodegenRun CodegenProps
  FDExprModel FDExprSpec FDExprProofs FDSpec FDReal GridModel GridSpec GridMore ConsistSpec ConsistModel ConsistProofs ConsistMain LineModel AdvectModel AdvectSpec.
Import ListNotations.
Close Scope Q_scope.
Open Scope nat_scope.
Open Scope string_scope.
Open Scope list_scope.

Definition gradient (c : advect) : list sx := map (fun a => SDer (carried c) [(a, 1)]) (axes c).
Definition advect_S (c : advect) (constant : list sx) : pdes :=
  {| s_functions := map (wind c) (winds c) ++ [carried c]; s_prognostic := [carried c]; s_constant := constant; s_exogenous := [];
     s_coordinates := time :: axis_symbols c; s_spatial := axis_symbols c; s_trainable := []; s_constants := [];
     s_derivatives := gradient c; s_max_order := 1 |}.

Section System.
  Variables (enum : list sx -> list sx) (c : advect).
  Hypothesis E : forall l, Permutation (enum l) l.

  Lemma prognostic_ok : get_prognostic enum (advection c) = Ok [carried c].
  Proof.
    set (base := SDer (carried c) [("t", 1)] :: gradient c).
    set (pick := fun d => if sx_eq_dec d (SDer (carried c) [("t", 1)]) then [carried c] else []).
    assert (F : forall l acc, (forall d, In d l -> In d base) ->
      foldM (fun acc d => bind (first_variable d) (fun v => if String.eqb v "t" then
               match d with SDer f _ => Ok (acc ++ [f]) | _ => Ok acc end else Ok acc)) acc l = Ok (acc ++ flat_map pick l)).
    { induction l as [|d l IH]; intros acc Hl; [cbn; rewrite app_nil_r; reflexivity|].
      assert (Hd : In d base) by (apply Hl; left; auto). cbn [foldM flat_map].
      assert (Step : bind (first_variable d) (fun v => if String.eqb v "t" then
               match d with SDer f _ => Ok (acc ++ [f]) | _ => Ok acc end else Ok acc) = Ok (acc ++ pick d)).
      { destruct c; cbn in Hd; repeat (destruct Hd as [<-|Hd]; [cbn; rewrite ?app_nil_r; reflexivity|]); destruct Hd. }
      rewrite Step. cbn [bind]. rewrite IH by (intros; apply Hl; right; auto). rewrite app_assoc. reflexivity. }
    assert (D : exists q, advection c = [q] /\ eq_atoms is_derivative q = base) by (destruct c; eexists; split; reflexivity).
    destruct D as (q & -> & D). unfold get_prognostic. cbn [mapM]. unfold prognostic_of. rewrite D, F.
    2:{ intros d Hd. eapply Permutation_in; [apply E|exact Hd]. }
    assert (P : Permutation (flat_map pick (enum base)) [carried c]).
    { transitivity (flat_map pick base); [apply Permutation_flat_map; apply E|]. destruct c; reflexivity. }
    apply Permutation_sym, Permutation_length_1_inv in P. rewrite P. reflexivity.
  Qed.

  Definition const_list := enum (map (wind c) (winds c)).
  Lemma const_in f : In f const_list <-> In f (map (wind c) (winds c)).
  Proof. split; intros H; (eapply Permutation_in; [|exact H]); [|symmetry]; apply E. Qed.

  Lemma constant_ok : get_constant enum (get_functions (advection c)) [carried c] = Ok const_list.
  Proof.
    unfold get_constant.
    replace (difference (get_functions (advection c)) [carried c]) with (map (wind c) (winds c)) by (destruct c; reflexivity).
    fold const_list. assert (F : forall l acc, (forall f, In f l -> In f const_list) ->
      foldM (fun acc f => bind (first_arg f) (fun a => Ok (if smem time (atoms is_symbol a) then acc else acc ++ [f]))) acc l = Ok (acc ++ l)).
    { induction l as [|f l IH]; intros acc Hl; [cbn; rewrite app_nil_r; reflexivity|].
      assert (Hf : In f (map (wind c) (winds c))) by (apply const_in, Hl; left; auto). cbn [foldM].
      assert (Step : bind (first_arg f) (fun a => Ok (if smem time (atoms is_symbol a) then acc else acc ++ [f])) = Ok (acc ++ [f])).
      { destruct c; cbn in Hf; repeat (destruct Hf as [<-|Hf]; [reflexivity|]); destruct Hf. }
      rewrite Step. cbn [bind]. rewrite IH by (intros; apply Hl; right; auto). rewrite <- app_assoc. reflexivity. }
    apply (F const_list []). auto.
  Qed.

  Lemma advection_ok : pde_system enum (advection c) = Ok (advect_S c const_list).
  Proof.
    unfold pde_system. rewrite prognostic_ok. cbn [bind]. rewrite constant_ok. cbn [bind].
    assert (X : get_exogenous (get_functions (advection c)) [carried c] const_list = []).
    { unfold get_exogenous.
      replace (difference (get_functions (advection c)) [carried c]) with (map (wind c) (winds c)) by (destruct c; reflexivity).
      unfold difference. assert (G : forall l, (forall f, In f l -> In f const_list) -> filter (fun x => negb (smem x const_list)) l = []).
      { induction l as [|f l IH]; intros Hl; [reflexivity|]. cbn.
        assert (M : smem f const_list = true) by (apply smem_true; apply Hl; left; auto). rewrite M. cbn. apply IH. intros; apply Hl; right; auto. }
      apply G. intros f Hf. apply const_in. exact Hf. }
    rewrite X. clear X. generalize const_list. intros l. clear. destruct c; vm_compute; reflexivity.
  Qed.

  Lemma carried_args : simple_args (time :: axis_symbols c).
  Proof. intros y Hy. destruct c; cbn in Hy; intuition (subst; auto). Qed.
  Lemma wind_args : simple_args (axis_symbols c).
  Proof. intros y Hy. destruct c; cbn in Hy; intuition (subst; auto). Qed.

  Lemma advection_translatable : translatable (advect_S c const_list) (advection c).
  Proof.
    pose proof carried_args as A1. pose proof wind_args as A2.
    assert (N0 : Permutation (names (advect_S c const_list))
                   (names (advect_S c (map (wind c) (winds c))))).
    { unfold names. cbn [s_prognostic s_constant s_constants s_exogenous s_derivatives advect_S].
      do 2 apply Permutation_app_head. apply Permutation_app_tail. apply Permutation_map. apply E. }
    split.
    - destruct c; reflexivity.
    - intros f [<-|[]]. do 2 eexists. split; [reflexivity|auto].
    - intros q Hq. destruct c; destruct Hq as [<-|[]]; cbn [snd];
        repeat first [apply Forall_nil | apply Forall_cons | apply flat_add | apply flat_mul
                   | apply flat_num | apply flat_app; assumption
                   | apply flat_der; [assumption|discriminate|repeat constructor; intros []
                                     |intros [?|[]]; discriminate|intros p [<-|[]]; discriminate]].
    - intros k [].
    - intros g v w H H' C. unfold advect_S, s_derivatives, gradient in H, H'.
      apply in_map_iff in H. destruct H as (x & H & Hx). apply in_map_iff in H'. destruct H' as (y & H' & Hy).
      injection H as <- <-. injection H' as <-. specialize (C x). cbn in C. rewrite String.eqb_refl in C.
      destruct (String.eqb_spec y x) as [->|]; [reflexivity|discriminate].
    - apply (Permutation_NoDup (Permutation_sym N0)). destruct c; vm_compute; repeat constructor; cbn; intuition discriminate.
    - intros x Hx. apply (Permutation_in _ N0) in Hx. destruct c; vm_compute in Hx; cbn; intuition (subst; discriminate).
  Qed.
End System.

Open Scope R_scope.
(** ** the shifts of the generated code are the neighbours *)
Lemma wrap_zeros shape : forall js, in_range shape js -> wrap shape (repeat 0%Z (List.length shape)) js = js.
Proof.
  induction shape as [|n shape IH]; intros js H; inversion H; subst; [reflexivity|]. cbn [List.length repeat wrap].
  rewrite Z.add_0_r, Z.mod_small by lia. rewrite Nat2Z.id. f_equal. apply IH; auto.
Qed.
Lemma wrap_unit shape : forall k (s : Z) js, in_range shape js -> (k < List.length shape)%nat ->
  wrap shape (addz k s (repeat 0%Z (List.length shape))) js
  = replace k (Z.to_nat ((Z.of_nat (nth k js O) + s) mod Z.of_nat (nth k shape O))) js.
Proof.
  induction shape as [|n shape IH]; intros [|k] s js H Hk; inversion H; subst; try (cbn in Hk; lia).
  - unfold addz. cbn [List.length repeat nth set_nth wrap replace]. rewrite Z.add_0_l, wrap_zeros by auto. reflexivity.
  - specialize (IH k s l' ltac:(auto) ltac:(cbn in Hk; lia)). unfold addz in *. cbn [List.length repeat nth set_nth wrap replace].
    rewrite Z.add_0_r, Z.mod_small by lia. rewrite Nat2Z.id. f_equal. exact IH.
Qed.
Lemma in_range_nth shape : forall js k, in_range shape js -> (k < List.length shape)%nat -> (nth k js O < nth k shape O)%nat.
Proof.
  induction shape as [|n shape IH]; intros js [|k] H Hk; inversion H; subst; try (cbn in Hk; lia); cbn [nth]; auto.
  apply IH; auto. cbn in Hk. lia.
Qed.
Lemma wrap_next shape k js : in_range shape js -> (k < List.length shape)%nat ->
  wrap shape (addz k 1 (repeat 0%Z (List.length shape))) js = next shape k js.
Proof.
  intros H Hk. rewrite wrap_unit by auto. unfold next. f_equal. pose proof (in_range_nth _ _ _ H Hk).
  apply Nat2Z.inj. rewrite Z2Nat.id by (apply Z.mod_pos_bound; lia). rewrite Nat2Z.inj_mod, Nat2Z.inj_add. reflexivity.
Qed.
Lemma wrap_prev shape k js : in_range shape js -> (k < List.length shape)%nat ->
  wrap shape (addz k (-1) (repeat 0%Z (List.length shape))) js = prev shape k js.
Proof.
  intros H Hk. rewrite wrap_unit by auto. unfold prev. f_equal. pose proof (in_range_nth _ _ _ H Hk).
  apply Nat2Z.inj. rewrite Z2Nat.id by (apply Z.mod_pos_bound; lia). rewrite Nat2Z.inj_mod.
  rewrite Nat2Z.inj_sub, Nat2Z.inj_add by lia.
  replace (Z.of_nat (nth k js O) + Z.of_nat (nth k shape O) - Z.of_nat 1)%Z
    with (Z.of_nat (nth k js O) + -1 + 1 * Z.of_nat (nth k shape O))%Z by lia.
  rewrite Z.mod_add by lia. reflexivity.
Qed.

Lemma stencil_slope lengths shape k (dx : nat -> R) (a : list nat -> R) js : in_range shape js -> (k < List.length shape)%nat ->
  dx k = step_of lengths shape k -> dx k <> 0 ->
  tval RF (fun d => a (wrap shape d js)) (tensor RF dx (repeat 0%Z (List.length shape)) [(k, 1%nat)]) = slope lengths shape k a js.
Proof.
  intros H Hk Ed N. unfold slope. rewrite <- Ed. rewrite tval_tensor_cons.
  rewrite <- (wrap_next shape k js), <- (wrap_prev shape k js) by auto.
  cbn -[wrap addz Rmult Rplus Rinv Rdiv]. unfold tval, wsum. cbn -[wrap addz Rmult Rplus Rinv Rdiv].
  field. auto.
Qed.

Section Trend.
  Variables (c : advect) (lengths : list R) (shape : list nat) (W : list (list nat -> R)).
  Variables (enum : list sx -> list sx) (x : nat -> R) (ord : list datom -> list datom).
  Variables (rpow : R -> R -> R) (g : @grid RF) (caches : R -> list (string * nat) -> (list nat -> R) -> cache).
  Variable attr : string -> res (list nat -> R).
  Hypothesis AC : advect_class c lengths shape W enum ord g caches attr.
  Notation trend := (generated_trend enum x ord rpow (axes c) g caches attr (advection c)).

  Lemma axes_nodup : NoDup (axes c).
  Proof. destruct c; repeat constructor; cbn; intuition discriminate. Qed.
  Lemma sides_length : List.length lengths = List.length (axes c).
  Proof. apply (ad_sides _ _ _ _ _ _ _ _ _ AC). Qed.
  Lemma sides_pos : forall L, In L lengths -> 0 < L.
  Proof. apply (ad_sides _ _ _ _ _ _ _ _ _ AC). Qed.
  Lemma shape_ok : List.length shape = List.length (axes c) /\ (forall n, In n shape -> n <> O).
  Proof. exact (@grid_shape_valid RF (axes c) lengths shape g sides_length (ad_grid _ _ _ _ _ _ _ _ _ AC)). Qed.
  Lemma dx_ok : g_dx g = spacings lengths shape.
  Proof.
    destruct shape_ok as [Ls Hn].
    exact (proj2 (grid_spacings (axes c) lengths axes_nodup sides_length shape g (ad_grid _ _ _ _ _ _ _ _ _ AC) Ls Hn)).
  Qed.
  Lemma spacing_ok k : (k < List.length shape)%nat -> @spacing RF g k = step_of lengths shape k.
  Proof.
    intros Hk. destruct shape_ok as [Ls Hn]. unfold spacing. rewrite dx_ok. 
    destruct (nth_error lengths k) as [L|] eqn:E; [|apply nth_error_None in E; rewrite sides_length in E; lia].
    destruct (spacings_nth lengths shape k L ltac:(rewrite sides_length; exact Ls) E) as (n & Hs & Hv).
    change (nth k (spacings lengths shape) 0 = step_of lengths shape k).
    unfold step_of. rewrite Hv, (nth_error_nth _ _ 0 E), (nth_error_nth _ _ O Hs). reflexivity.
  Qed.
  Lemma step_pos k : (k < List.length shape)%nat -> 0 < step_of lengths shape k.
  Proof.
    intros Hk. destruct shape_ok as [Ls Hn]. unfold step_of. apply Rdiv_lt_0_compat.
    - apply sides_pos. apply nth_In. rewrite sides_length. lia.
    - apply (lt_INR 0). assert (nth k shape O <> O) by (apply Hn; apply nth_In; auto). lia.
  Qed.

  Lemma axis_code t k name (a : list nat -> R) : nth_error (axes c) k = Some name ->
    exists b, @derivative_code RF x ord (axes c) g (caches t [(name, 1%nat)] a) [(name, 1%nat)] a = Ok b /\
      forall js, in_range shape js -> b js = slope lengths shape k a js.
  Proof.
    intros Hk. destruct (ad_caches _ _ _ _ _ _ _ _ _ AC t [(name, 1%nat)] a) as (hist & Hh).
    assert (Hl : (k < List.length shape)%nat).
    { rewrite (proj1 shape_ok). apply nth_error_Some. congruence. }
    assert (Hv : variables (axes c) [(name, 1%nat)] = Ok [(k, 1%nat)]).
    { destruct c; do 4 (destruct k as [|k]; [try discriminate Hk; injection Hk as <-; reflexivity|]); destruct k; discriminate Hk. }
    destruct (code_is_shift (axes c) lengths axes_nodup sides_length sides_pos
      x ord shape g (caches t [(name, 1%nat)] a) hist [(name, 1%nat)] _ a (ad_ord _ _ _ _ _ _ _ _ _ AC) (ad_grid _ _ _ _ _ _ _ _ _ AC) Hh Hv) as (b & E & H).
    exists b. split; [exact E|]. intros js Hj. rewrite H by auto. rewrite <- (proj1 shape_ok).
    pose proof (step_pos k Hl). apply stencil_slope; auto; rewrite spacing_ok by auto; lra.
  Qed.

  Definition rho (state : list nat -> R) (e : sx) : list nat -> R :=
    if sx_eq_dec e (carried c) then row state O
    else match attr (function_keyvar e) with Ok a => a | Err _ => fun _ => 0 end.
  Definition delta (t : R) (v : list (string * nat)) (a : list nat -> R) : list nat -> R :=
    match @derivative_code RF x ord (axes c) g (caches t v a) v a with Ok b => b | Err _ => fun _ => 0 end.

  Lemma wind_attr k name : nth_error (winds c) k = Some name -> attr name = Ok (wind_along W k).
  Proof.
    intros H. pose proof (ad_winds _ _ _ _ _ _ _ _ _ AC) as F. unfold wind_along. clear AC. revert k H.
    induction F as [|n a l l' Hn F IH]; intros [|k] H; try discriminate.
    - injection H as <-. exact Hn.
    - apply IH. exact H.
  Qed.

  Theorem advection_trend t state : exists r, trend t state = Ok r /\
    forall js, in_range shape js -> r (O :: js) = transported lengths shape (wind_along W) (field state) js.
  Proof.
    pose proof (ad_enum _ _ _ _ _ _ _ _ _ AC) as PE.
    destruct (C29_rows (list nat -> R) a_num a_add a_mul (a_pow rpow) (fun _ => 0) (fun _ => 1)
      (fun v a => @derivative_code RF x ord (axes c) g (caches t v a) v a) attr None
      (rho state) (fun _ _ => 0) (delta t) enum PE (advection c) (advect_S c (const_list enum c)) [row state O]
      (advection_ok enum c PE) (advection_translatable enum c PE)) as (prog & E1 & E2).
    { split.
      - cbn. unfold rho. destruct (sx_eq_dec (carried c) (carried c)); [reflexivity|congruence].
      - intros f Hf. apply (const_in enum c PE) in Hf. apply in_map_iff in Hf. destruct Hf as (name & <- & Hn).
        apply In_nth_error in Hn. destruct Hn as (k & Hk).
        assert (K : function_keyvar (wind c name) = name).
        { destruct c; do 4 (destruct k as [|k]; [try discriminate Hk; injection Hk as <-; reflexivity|]); destruct k; discriminate Hk. }
        assert (N : wind c name <> carried c) by (destruct c; discriminate).
        unfold rho. destruct (sx_eq_dec (wind c name) (carried c)); [congruence|]. rewrite K, (wind_attr k name Hk). reflexivity.
      - intros k [].
      - intros N. exfalso. apply N. reflexivity.
      - intros f v Hd. cbn [s_derivatives advect_S] in Hd. apply in_map_iff in Hd. destruct Hd as (name & Hd & Hn).
        injection Hd as <- <-. apply In_nth_error in Hn. destruct Hn as (k & Hk).
        destruct (axis_code t k name (rho state (carried c)) Hk) as (b & Eb & _). unfold delta. rewrite Eb. reflexivity. }
    unfold generated_trend. rewrite (advection_ok enum c PE). cbn [bind].
    rewrite E1. cbn [bind]. change (map (row state) (seq 0 (List.length (s_prognostic (advect_S c (const_list enum c)))))) with [row state O].
    rewrite E2. cbn [bind]. eexists. split; [reflexivity|]. intros js Hj.
    assert (RC : rho state (carried c) = field state).
    { unfold rho. destruct (sx_eq_dec (carried c) (carried c)); [reflexivity|congruence]. }
    assert (T : forall k name axis, nth_error (winds c) k = Some name -> nth_error (axes c) k = Some axis ->
      mean (list nat -> R) a_num a_add a_mul (a_pow rpow) (fun _ => 0) (fun _ => 1) (rho state) (fun _ _ => 0) (delta t) (transport c name axis) js
      = - (wind_along W k js * slope lengths shape k (field state) js)).
    { intros k name axis H1 H2. unfold transport. cbn [mean map fold_right]. rewrite RC.
      assert (RW : rho state (wind c name) = wind_along W k).
      { assert (K : function_keyvar (wind c name) = name).
        { destruct c; do 4 (destruct k as [|k]; [try discriminate H1; injection H1 as <-; reflexivity|]); destruct k; discriminate H1. }
        unfold rho. destruct (sx_eq_dec (wind c name) (carried c)) as [N|]; [destruct c; discriminate N|]. rewrite K, (wind_attr k name H1). reflexivity. }
      change (mean (list nat -> R) a_num a_add a_mul (a_pow rpow) (fun _ => 0) (fun _ => 1) (rho state) (fun _ _ => 0) (delta t) (wind c name)) with (rho state (wind c name)).
      rewrite RW. destruct (axis_code t k axis (field state) H2) as (b & Eb & Hb).
      unfold a_mul, a_num, delta. rewrite Eb, Hb by auto. unfold Q2R. cbn. rewrite Rinv_1. ring. }
    unfold transported, over_axes. rewrite (proj1 shape_ok).
    set (M := mean (list nat -> R) a_num a_add a_mul (a_pow rpow) (fun _ => 0) (fun _ => 1) (rho state) (fun _ _ => 0) (delta t)) in *.
    destruct c; cbn [axes List.length seq map fold_right].
    - transitivity (M (transport Plane "u" "x") js + (M (transport Plane "v" "y") js + 0)); [reflexivity|].
      rewrite (T 0%nat "u" "x" eq_refl eq_refl), (T 1%nat "v" "y" eq_refl eq_refl). ring.
    - transitivity (M (transport Space "u" "x") js + (M (transport Space "v" "y") js + (M (transport Space "w" "z") js + 0))); [reflexivity|].
      rewrite (T 0%nat "u" "x" eq_refl eq_refl), (T 1%nat "v" "y" eq_refl eq_refl), (T 2%nat "w" "z" eq_refl eq_refl). ring.
  Qed.
End Trend.
