(** The trend generated from diffusion_in_2D is the scheme of centred differences. *)
From Coq Require Import List Arith ZArith Bool Reals QArith Qreals String Lia Lra Permutation FunctionalExtensionality.
From Verif Require Import PyBase PyBaseFacts Scalars FieldFacts SymModel RandomProofs PDEModel PDEProofs PDEProps StrModel CodegenModel CodegenSpec CodegenProofs CodegenRun CodegenProps
  FDExprModel FDExprSpec FDExprProofs FDSpec FDReal GridModel GridSpec GridProofs GridMore ConsistSpec ConsistModel ConsistProofs ConsistMain LineModel AdvectModel AdvectSpec AdvectTrend AdvectGrid StatTrend DiffuseModel DiffuseSpec.
Import ListNotations.
Close Scope Q_scope.
Open Scope nat_scope.
Open Scope string_scope.
Open Scope list_scope.

Definition tensors : list sx := [kappa11; kappa12; kappa22].
Definition diffuse_S (constant : list sx) : pdes :=
  {| s_functions := get_functions diffusion_in_2D; s_prognostic := [heat]; s_constant := constant; s_exogenous := [];
     s_coordinates := time :: plane_symbols; s_spatial := plane_symbols; s_trainable := []; s_constants := [];
     s_derivatives := get_derivatives diffusion_in_2D; s_max_order := 2 |}.

Section System.
  Variable enum : list sx -> list sx.
  Hypothesis E : forall l, Permutation (enum l) l.
  Lemma diffuse_prognostic : get_prognostic enum diffusion_in_2D = Ok [heat].
  Proof.
    apply (PDEProofs.prognostic_in_order enum E). constructor; [|constructor]. apply lhs_sound. vm_compute. reflexivity.
  Qed.
  Definition tensor_list := enum tensors.
  Lemma tensor_in f : In f tensor_list <-> In f tensors.
  Proof. split; intros H; (eapply Permutation_in; [|exact H]); [|symmetry]; apply E. Qed.
  Lemma tensor_diff : difference (get_functions diffusion_in_2D) [heat] = tensors.
  Proof. vm_compute. reflexivity. Qed.
  Lemma diffuse_constant : get_constant enum (get_functions diffusion_in_2D) [heat] = Ok tensor_list.
  Proof.
    unfold get_constant. rewrite tensor_diff. fold tensor_list.
    assert (F : forall l acc, (forall f, In f l -> In f tensor_list) ->
      foldM (fun acc f => bind (first_arg f) (fun a => Ok (if smem time (atoms is_symbol a) then acc else acc ++ [f]))) acc l = Ok (acc ++ l)).
    { induction l as [|f l IH]; intros acc Hl; [cbn; rewrite app_nil_r; reflexivity|].
      assert (Hf : In f tensors) by (apply tensor_in, Hl; left; auto). cbn [foldM].
      assert (Step : bind (first_arg f) (fun a => Ok (if smem time (atoms is_symbol a) then acc else acc ++ [f])) = Ok (acc ++ [f])).
      { repeat (destruct Hf as [<-|Hf]; [reflexivity|]). destruct Hf. }
      rewrite Step. cbn [bind]. rewrite IH by (intros; apply Hl; right; auto). rewrite <- app_assoc. reflexivity. }
    apply (F tensor_list []). auto.
  Qed.
  Lemma diffusion_ok : pde_system enum diffusion_in_2D = Ok (diffuse_S tensor_list).
  Proof.
    unfold pde_system. rewrite diffuse_prognostic. cbn [bind]. rewrite diffuse_constant. cbn [bind].
    assert (X : get_exogenous (get_functions diffusion_in_2D) [heat] tensor_list = []).
    { unfold get_exogenous. rewrite tensor_diff. unfold difference.
      assert (G : forall l, (forall f, In f l -> In f tensor_list) -> filter (fun x => negb (smem x tensor_list)) l = []).
      { induction l as [|f l IH]; intros Hl; [reflexivity|]. cbn.
        assert (M : smem f tensor_list = true) by (apply smem_true; apply Hl; left; auto). rewrite M. cbn. apply IH. intros; apply Hl; right; auto. }
      apply G. intros f Hf. apply tensor_in. exact Hf. }
    rewrite X. clear X. generalize tensor_list. intros l. vm_compute. reflexivity.
  Qed.
  Lemma heat_args : simple_args (time :: plane_symbols).
  Proof. intros y Hy. cbn in Hy; intuition (subst; auto). Qed.
  Lemma tensor_args : simple_args plane_symbols.
  Proof. intros y Hy. cbn in Hy; intuition (subst; auto). Qed.
  Definition heat_ders : list (list (string * nat)) := [[("x", 1)]; [("y", 1)]; [("x", 2)]; [("y", 2)]; [("x", 1); ("y", 1)]].
  Lemma derivative_cases f v : In (SDer f v) (get_derivatives diffusion_in_2D) ->
    (f = heat /\ In v heat_ders) \/ (In f tensors /\ In v [[("x", 1)]; [("y", 1)]]).
  Proof.
    intros H. vm_compute in H.
    repeat (destruct H as [H|H]; [injection H as <- <-; first [left; split; [reflexivity|cbn; tauto] | right; split; [cbn; tauto|cbn; tauto]]|]). destruct H.
  Qed.
  Lemma diffusion_translatable : translatable (diffuse_S tensor_list) diffusion_in_2D.
  Proof.
    pose proof heat_args as A1. pose proof tensor_args as A2.
    assert (N0 : Permutation (names (diffuse_S tensor_list)) (names (diffuse_S tensors))).
    { unfold names. cbn [s_prognostic s_constant s_constants s_exogenous s_derivatives diffuse_S].
      do 2 apply Permutation_app_head. apply Permutation_app_tail. apply Permutation_map. apply E. }
    split.
    - reflexivity.
    - intros f [<-|[]]. do 2 eexists. split; [reflexivity|auto].
    - intros q Hq. destruct Hq as [<-|[]]; cbn [snd]; unfold diffusion_terms;
        repeat first [apply Forall_nil | apply Forall_cons | apply flat_add | apply flat_mul
                   | apply flat_num | apply flat_app; assumption
                   | apply flat_der; [assumption|discriminate|repeat constructor; cbn; intuition discriminate
                                     |cbn; intuition discriminate|cbn; intros p Hp; intuition (subst; discriminate)]].
    - intros k [].
    - intros g v w H H' C. cbn [s_derivatives diffuse_S] in H, H'. apply derivative_cases in H, H'.
      pose proof (C "x") as Cx. pose proof (C "y") as Cy. clear C.
      assert (Hv : In v heat_ders) by (destruct H as [[_ H]|[_ H]]; cbn in *; tauto).
      assert (Hw : In w heat_ders) by (destruct H' as [[_ H']|[_ H']]; cbn in *; tauto). clear H H'.
      cbn in Hv, Hw. repeat (destruct Hv as [<-|Hv]; [repeat (destruct Hw as [<-|Hw]; [first [reflexivity | cbn in Cx, Cy; discriminate]|]); destruct Hw|]). destruct Hv.
    - apply (Permutation_NoDup (Permutation_sym N0)). apply nodupb_ok. vm_compute; reflexivity.
    - intros x Hx I. apply (Permutation_in _ N0) in Hx.
      assert (B : forallb (fun x => negb (existsb (String.eqb x) reserved)) (names (diffuse_S tensors)) = true) by (vm_compute; reflexivity).
      rewrite forallb_forall in B. specialize (B x Hx). apply negb_true_iff in B.
      assert (existsb (String.eqb x) reserved = true); [|congruence]. apply existsb_exists. exists x. split; auto. apply String.eqb_refl.
  Qed.
End System.

Open Scope R_scope.
Lemma addz_twice k s s' : forall z, addz k s (addz k s' z) = addz k (s' + s) z.
Proof.
  unfold addz. induction k as [|k IH]; intros [|a z]; cbn; auto.
  - f_equal. lia.
  - f_equal. apply IH.
Qed.
Lemma addz_zero k : forall z, addz k 0 z = z.
Proof. unfold addz. induction k as [|k IH]; intros [|a z]; cbn; auto; [f_equal; lia|f_equal; apply IH]. Qed.
Lemma stencil_curve lengths shape k (dx : nat -> R) (a : list nat -> R) js : in_range shape js -> (k < List.length shape)%nat ->
  dx k = step_of lengths shape k -> dx k <> 0 ->
  tval RF (fun d => a (wrap shape d js)) (tensor RF dx (repeat 0%Z (List.length shape)) [(k, 2%nat)]) = curve lengths shape k a js.
Proof.
  intros H Hk Ed N. unfold curve. rewrite <- Ed. rewrite tval_tensor_cons.
  rewrite <- (wrap_next shape k js), <- (wrap_prev shape k js) by auto.
  replace (a js) with (a (wrap shape (addz k 0 (repeat 0%Z (List.length shape))) js)) by (rewrite addz_zero, wrap_zeros by auto; reflexivity).
  cbn -[wrap addz Rmult Rplus Rinv Rdiv]. unfold tval, wsum. cbn -[wrap addz Rmult Rplus Rinv Rdiv].
  field. auto.
Qed.
Lemma stencil_cross lengths shape (dx : nat -> R) (a : list nat -> R) js : in_range shape js -> List.length shape = 2%nat ->
  dx 0%nat = step_of lengths shape 0 -> dx 0%nat <> 0 -> dx 1%nat = step_of lengths shape 1 -> dx 1%nat <> 0 ->
  tval RF (fun d => a (wrap shape d js)) (tensor RF dx (repeat 0%Z (List.length shape)) [(0%nat, 1%nat); (1%nat, 1%nat)]) = slope lengths shape 0 (slope lengths shape 1 a) js.
Proof.
  intros H Ls E0 N0 E1 N1. unfold slope. rewrite <- E0, <- E1, !tval_tensor_cons.
  assert (In0 : forall s, in_range shape (wrap shape (addz 0 s (repeat 0%Z (List.length shape))) js)).
  { intros s. apply wrap_in_range; auto. unfold addz. rewrite set_nth_length, repeat_length. reflexivity. }
  assert (X : forall s s', wrap shape (addz 1 s' (addz 0 s (repeat 0%Z (List.length shape)))) js
     = wrap shape (addz 1 s' (repeat 0%Z (List.length shape))) (wrap shape (addz 0 s (repeat 0%Z (List.length shape))) js)).
  { intros s s'. destruct shape as [|n [|m [|? ?]]]; try discriminate Ls. inversion H as [|? ? ? ? Hn H1]; subst. inversion H1 as [|? ? ? ? Hm H2]; subst. inversion H2; subst.
    cbn [List.length repeat]. unfold addz. cbn [nth set_nth]. rewrite !Z.add_0_l. rewrite wrap_wrap.
    - f_equal. cbn. rewrite !Z.add_0_r. reflexivity.
    - reflexivity.
    - reflexivity.
    - exact H. }
  rewrite <- (wrap_next shape 1 (next shape 0 js)), <- (wrap_prev shape 1 (next shape 0 js)) by (try lia; rewrite <- wrap_next by (auto; lia); auto).
  rewrite <- (wrap_next shape 1 (prev shape 0 js)), <- (wrap_prev shape 1 (prev shape 0 js)) by (try lia; rewrite <- wrap_prev by (auto; lia); auto).
  rewrite <- !(wrap_next shape 0 js), <- !(wrap_prev shape 0 js) by (auto; lia). rewrite <- !X.
  cbn -[wrap addz Rmult Rplus Rinv Rdiv]. unfold tval, wsum. cbn -[wrap addz Rmult Rplus Rinv Rdiv].
  field. auto.
Qed.

Section Trend.
  Variables (lengths : list R) (shape : list nat) (K : kappa (list nat -> R)).
  Variables (enum : list sx -> list sx) (x : nat -> R) (ord : list datom -> list datom).
  Variables (rpow : R -> R -> R) (g : @grid RF) (caches : R -> list (string * nat) -> (list nat -> R) -> cache).
  Variable attr : string -> res (list nat -> R).
  Hypothesis DC : diffuse_class lengths shape K enum ord g caches attr.
  Notation trend := (generated_trend enum x ord rpow plane g caches attr diffusion_in_2D).

  Lemma plane_nodup : NoDup plane.
  Proof. repeat constructor; cbn; intuition discriminate. Qed.
  Lemma d_sides : List.length lengths = List.length plane.
  Proof. exact (proj1 (df_sides _ _ _ _ _ _ _ _ DC)). Qed.
  Lemma d_sides_pos : forall L, In L lengths -> 0 < L.
  Proof. exact (proj2 (df_sides _ _ _ _ _ _ _ _ DC)). Qed.
  Lemma d_shape : List.length shape = 2%nat /\ (forall n, In n shape -> n <> O).
  Proof. exact (@grid_shape_valid RF plane lengths shape g d_sides (df_grid _ _ _ _ _ _ _ _ DC)). Qed.
  Lemma d_dx : g_dx g = spacings lengths shape.
  Proof.
    destruct d_shape as [Ls Hn].
    exact (proj2 (grid_spacings plane lengths plane_nodup d_sides shape g (df_grid _ _ _ _ _ _ _ _ DC) Ls Hn)).
  Qed.
  Lemma d_spacing k : (k < List.length shape)%nat -> @spacing RF g k = step_of lengths shape k.
  Proof.
    intros Hk. destruct d_shape as [Ls Hn]. unfold spacing. rewrite d_dx.
    destruct (nth_error lengths k) as [L|] eqn:E; [|apply nth_error_None in E; rewrite d_sides in E; cbn in E; lia].
    destruct (spacings_nth lengths shape k L ltac:(rewrite d_sides; exact Ls) E) as (n & Hs & Hv).
    change (nth k (spacings lengths shape) 0 = step_of lengths shape k).
    unfold step_of. rewrite Hv, (nth_error_nth _ _ 0 E), (nth_error_nth _ _ O Hs). reflexivity.
  Qed.
  Lemma d_step_pos k : (k < List.length shape)%nat -> 0 < step_of lengths shape k.
  Proof.
    intros Hk. destruct d_shape as [Ls Hn]. unfold step_of. apply Rdiv_lt_0_compat.
    - apply d_sides_pos. apply nth_In. rewrite d_sides. cbn. lia.
    - apply (lt_INR 0). assert (nth k shape O <> O) by (apply Hn; apply nth_In; auto). lia.
  Qed.
  Definition d_of (v : list (string * nat)) (a : list nat -> R) : list nat -> R :=
    match v with
    | [(c, 1%nat)] => slope lengths shape (if String.eqb c "x" then 0%nat else 1%nat) a
    | [(c, _)] => curve lengths shape (if String.eqb c "x" then 0%nat else 1%nat) a
    | _ => slope lengths shape 0 (slope lengths shape 1 a)
    end.
  Lemma d_code t v (a : list nat -> R) : In v heat_ders ->
    exists b, @derivative_code RF x ord plane g (caches t v a) v a = Ok b /\
      forall js, in_range shape js -> b js = d_of v a js.
  Proof.
    intros Hv. destruct (df_caches _ _ _ _ _ _ _ _ DC t v a) as (hist & Hh). destruct d_shape as [Ls Hn].
    assert (P0 : 0 < step_of lengths shape 0) by (apply d_step_pos; lia). assert (P1 : 0 < step_of lengths shape 1) by (apply d_step_pos; lia).
    assert (Hr : exists ds, variables plane v = Ok ds /\ forall js, in_range shape js ->
      tval RF (fun d => a (wrap shape d js)) (tensor RF (@spacing RF g) (repeat 0%Z (List.length shape)) ds) = d_of v a js).
    { assert (E0 := d_spacing 0%nat ltac:(lia)). assert (E1 := d_spacing 1%nat ltac:(lia)).
      assert (N0 : @spacing RF g 0%nat <> 0) by (rewrite E0; lra). assert (N1 : @spacing RF g 1%nat <> 0) by (rewrite E1; lra).
      unfold heat_ders in Hv. destruct Hv as [<-|[<-|[<-|[<-|[<-|[]]]]]].
      - exists [(0%nat, 1%nat)]. split; [reflexivity|]. intros js Hj. apply stencil_slope; auto; cbn; lia.
      - exists [(1%nat, 1%nat)]. split; [reflexivity|]. intros js Hj. apply stencil_slope; auto; cbn; lia.
      - exists [(0%nat, 2%nat)]. split; [reflexivity|]. intros js Hj. apply stencil_curve; auto; cbn; lia.
      - exists [(1%nat, 2%nat)]. split; [reflexivity|]. intros js Hj. apply stencil_curve; auto; cbn; lia.
      - exists [(0%nat, 1%nat); (1%nat, 1%nat)]. split; [reflexivity|]. intros js Hj. apply stencil_cross; auto. }
    destruct Hr as (ds & Hvar & Hval).
    destruct (code_is_shift plane lengths plane_nodup d_sides d_sides_pos
      x ord shape g (caches t v a) hist v _ a (df_ord _ _ _ _ _ _ _ _ DC) (df_grid _ _ _ _ _ _ _ _ DC) Hh Hvar) as (b & E & H).
    exists b. split; [exact E|]. intros js Hj. rewrite H by auto. change (List.length plane) with 2%nat. rewrite <- Ls. apply Hval; auto.
  Qed.
  Definition d_rho (state : list nat -> R) (e : sx) : list nat -> R :=
    if sx_eq_dec e heat then row state O
    else match attr (function_keyvar e) with Ok a => a | Err _ => fun _ => 0 end.
  Definition d_delta (t : R) (v : list (string * nat)) (a : list nat -> R) : list nat -> R :=
    match @derivative_code RF x ord plane g (caches t v a) v a with Ok b => b | Err _ => fun _ => 0 end.
  Lemma keyvar11 : function_keyvar kappa11 = "kappa_11"%string. Proof. vm_compute. reflexivity. Qed.
  Lemma keyvar12 : function_keyvar kappa12 = "kappa_12"%string. Proof. vm_compute. reflexivity. Qed.
  Lemma keyvar22 : function_keyvar kappa22 = "kappa_22"%string. Proof. vm_compute. reflexivity. Qed.
  Lemma rho11 state : d_rho state kappa11 = k11 K.
  Proof. unfold d_rho. destruct (sx_eq_dec kappa11 heat); [discriminate|]. rewrite keyvar11. destruct (df_attr _ _ _ _ _ _ _ _ DC) as (-> & _ & _). reflexivity. Qed.
  Lemma rho12 state : d_rho state kappa12 = k12 K.
  Proof. unfold d_rho. destruct (sx_eq_dec kappa12 heat); [discriminate|]. rewrite keyvar12. destruct (df_attr _ _ _ _ _ _ _ _ DC) as (_ & -> & _). reflexivity. Qed.
  Lemma rho22 state : d_rho state kappa22 = k22 K.
  Proof. unfold d_rho. destruct (sx_eq_dec kappa22 heat); [discriminate|]. rewrite keyvar22. destruct (df_attr _ _ _ _ _ _ _ _ DC) as (_ & _ & ->). reflexivity. Qed.
  Lemma rho_heat state : d_rho state heat = field state.
  Proof. unfold d_rho. destruct (sx_eq_dec heat heat); [reflexivity|congruence]. Qed.

  Theorem diffusion_trend t state : exists r, trend t state = Ok r /\
    forall js, in_range shape js -> r (O :: js) = diffused lengths shape K (field state) js.
  Proof.
    pose proof (df_enum _ _ _ _ _ _ _ _ DC) as PE.
    destruct (C29_rows (list nat -> R) a_num a_add a_mul (a_pow rpow) (fun _ => 0) (fun _ => 1)
      (fun v a => @derivative_code RF x ord plane g (caches t v a) v a) attr None
      (d_rho state) (fun _ _ => 0) (d_delta t) enum PE diffusion_in_2D (diffuse_S (tensor_list enum)) [row state O]
      (diffusion_ok enum PE) (diffusion_translatable enum PE)) as (prog & E1 & E2).
    { destruct (df_attr _ _ _ _ _ _ _ _ DC) as (K1 & K2 & K3). split.
      - cbn [s_prognostic diffuse_S map]. rewrite rho_heat. reflexivity.
      - intros f Hf. apply (tensor_in enum PE) in Hf.
        destruct Hf as [<-|[<-|[<-|[]]]]; rewrite ?rho11, ?rho12, ?rho22, ?keyvar11, ?keyvar12, ?keyvar22; auto.
      - intros k [].
      - intros N. exfalso. apply N. reflexivity.
      - intros f v Hd. cbn [s_derivatives diffuse_S] in Hd. apply derivative_cases in Hd.
        assert (Hv : In v heat_ders) by (destruct Hd as [[_ H]|[_ H]]; cbn in *; tauto).
        destruct (d_code t v (d_rho state f) Hv) as (b & Eb & _). unfold d_delta. rewrite Eb. reflexivity. }
    unfold generated_trend. rewrite (diffusion_ok enum PE). cbn [bind].
    rewrite E1. cbn [bind]. change (map (row state) (seq 0 (List.length (s_prognostic (diffuse_S (tensor_list enum)))))) with [row state O].
    rewrite E2. cbn [bind]. eexists. split; [reflexivity|]. intros js Hj.
    set (M := mean (list nat -> R) a_num a_add a_mul (a_pow rpow) (fun _ => 0) (fun _ => 1) (d_rho state) (fun _ _ => 0) (d_delta t)) in *.
    assert (D : forall v f, In v heat_ders -> d_delta t v (d_rho state f) js = d_of v (d_rho state f) js).
    { intros v f Hv. destruct (d_code t v (d_rho state f) Hv) as (b & Eb & Hb). unfold d_delta. rewrite Eb. apply Hb; auto. }
    transitivity (M (SAdd diffusion_terms) js); [reflexivity|].
    unfold M, diffusion_terms. cbn [mean map fold_right].
    assert (Mk : forall f, In f [kappa11; kappa12; kappa22] -> mean (list nat -> R) a_num a_add a_mul (a_pow rpow) (fun _ => 0) (fun _ => 1) (d_rho state) (fun _ _ => 0) (d_delta t) f = d_rho state f).
    { intros f [<-|[<-|[<-|[]]]]; reflexivity. }
    rewrite !Mk by (cbn; tauto). unfold a_add, a_mul, a_num.
    rewrite !D by (cbn; tauto). rewrite rho11, rho12, rho22, rho_heat. cbn [d_of String.eqb Ascii.eqb Bool.eqb]. unfold diffused.
    replace (Q2R 2) with 2 by (unfold Q2R; cbn; field).
    ring.
  Qed.
End Trend.
