(** The trend generated from the parametric dynamics of advection. *)
From Coq Require Import List Arith ZArith Bool Reals QArith Qreals String Lia Lra Permutation FunctionalExtensionality.
From Verif Require Import PyBase PyBaseFacts Scalars FieldFacts SymModel RandomProofs PDEModel PDEProofs PDEProps StrModel CodegenModel CodegenSpec CodegenProofs CodegenRun CodegenProps
  FDExprModel FDExprSpec FDExprProofs FDSpec FDReal GridModel GridSpec GridMore ConsistSpec ConsistModel ConsistProofs ConsistMain LineModel LineConv AdvectModel AdvectSpec AdvectTrend AdvectGrid AdvectConv StatModel StatInverse.
Import ListNotations.
Close Scope Q_scope.
Open Scope nat_scope.
Open Scope string_scope.
Open Scope list_scope.

Fixpoint nodupb (l : list string) : bool := match l with [] => true | x :: l => negb (existsb (String.eqb x) l) && nodupb l end.
Lemma nodupb_ok l : nodupb l = true -> NoDup l.
Proof.
  induction l as [|x l IH]; cbn; intros H; constructor; apply andb_prop in H; destruct H as [H1 H2]; auto.
  intros I. apply negb_true_iff in H1. assert (existsb (String.eqb x) l = true); [|congruence]. apply existsb_exists. exists x. split; auto. apply String.eqb_refl.
Qed.
Definition fields (c : advect) : list sx := map (qty_sx c) (statistics_of c).
Definition stat_S (c : advect) (constant : list sx) : pdes :=
  {| s_functions := get_functions (pkf_advection c); s_prognostic := fields c; s_constant := constant; s_exogenous := [];
     s_coordinates := time :: axis_symbols c; s_spatial := axis_symbols c; s_trainable := []; s_constants := [];
     s_derivatives := get_derivatives (pkf_advection c); s_max_order := 1 |}.

Section System.
  Variables (enum : list sx -> list sx) (c : advect).
  Hypothesis E : forall l, Permutation (enum l) l.
  Definition lhs_ok (q : equation) (f : sx) : bool :=
    if sx_eq_dec (fst q) (SDer f [("t", 1)]) then
      smem (fst q) (eq_atoms is_derivative q) &&
      forallb (fun d => match d with SDer _ ((v, _) :: _) => if String.eqb v "t" then if sx_eq_dec d (fst q) then true else false else true | _ => false end) (eq_atoms is_derivative q)
    else false.
  Lemma lhs_sound q f : lhs_ok q f = true -> (exists n v, In (SDer f (("t", n) :: v)) (eq_atoms is_derivative q) /\
             forall g m w, In (SDer g (("t", m) :: w)) (eq_atoms is_derivative q) -> SDer g (("t", m) :: w) = SDer f (("t", n) :: v)) /\
             forall g w, In (SDer g w) (eq_atoms is_derivative q) -> w <> [].
  Proof.
    unfold lhs_ok. destruct (sx_eq_dec (fst q) (SDer f [("t", 1)])) as [Eq|]; [|discriminate]. intros H. apply andb_prop in H. destruct H as [H1 H2].
    rewrite forallb_forall in H2. split.
    - exists 1, []. rewrite <- Eq. split; [apply smem_true; exact H1|]. intros g m w I. specialize (H2 _ I). cbv beta iota in H2. rewrite String.eqb_refl in H2.
      destruct (sx_eq_dec (SDer g (("t", m) :: w)) (fst q)); [auto|discriminate].
    - intros g w I ->. specialize (H2 _ I). discriminate.
  Qed.
  Lemma prognostic_ok : get_prognostic enum (pkf_advection c) = Ok (fields c).
  Proof.
    apply (prognostic_in_order enum E). unfold fields.
    assert (G : forallb (fun q => lhs_ok (fst q) (snd q)) (combine (pkf_advection c) (fields c)) = true) by (destruct c; vm_compute; reflexivity).
    unfold pkf_advection, fields in *. clear E. induction (statistics_of c) as [|q l IH]; cbn [map combine] in *; constructor.
    - cbn [forallb] in G. apply andb_prop in G. apply lhs_sound, G.
    - apply IH. cbn [forallb] in G. apply andb_prop in G. apply G.
  Qed.
  Lemma constant_ok : get_constant enum (get_functions (pkf_advection c)) (fields c) = Ok (const_list enum c).
  Proof.
    rewrite <- (AdvectTrend.constant_ok enum c E). unfold get_constant.
    replace (difference (get_functions (pkf_advection c)) (fields c)) with (map (wind c) (winds c)) by (destruct c; vm_compute; reflexivity).
    replace (difference (get_functions (advection c)) [carried c]) with (map (wind c) (winds c)) by (destruct c; reflexivity). reflexivity.
  Qed.
  Lemma statistics_ok : pde_system enum (pkf_advection c) = Ok (stat_S c (const_list enum c)).
  Proof.
    unfold pde_system. rewrite prognostic_ok. cbn [bind]. rewrite constant_ok. cbn [bind].
    assert (X : get_exogenous (get_functions (pkf_advection c)) (fields c) (const_list enum c) = []).
    { unfold get_exogenous.
      replace (difference (get_functions (pkf_advection c)) (fields c)) with (map (wind c) (winds c)) by (destruct c; vm_compute; reflexivity).
      unfold difference. assert (G : forall l, (forall f, In f l -> In f (const_list enum c)) -> filter (fun x => negb (smem x (const_list enum c))) l = []).
      { induction l as [|f l IH]; intros Hl; [reflexivity|]. cbn.
        assert (M : smem f (const_list enum c) = true) by (apply smem_true; apply Hl; left; auto). rewrite M. cbn. apply IH. intros; apply Hl; right; auto. }
      apply G. intros f Hf. apply (const_in enum c E). exact Hf. }
    rewrite X. clear X. generalize (const_list enum c). intros l. clear. destruct c; vm_compute; reflexivity.
  Qed.

  Lemma qty_app q : exists g l, qty_sx c q = SApp g l /\ simple_args l.
  Proof.
    pose proof (carried_args c) as A1. pose proof (wind_args c) as A2.
    destruct q; cbn [qty_sx]; unfold carried, wind; do 2 eexists; (split; [reflexivity|assumption]).
  Qed.
  Lemma term_flat t : (forall x k, In (x, Some k) (snd t) -> k < dims c) -> flat [] (term_sx c t).
  Proof.
    intros H. unfold term_sx. apply flat_mul. apply Forall_app. split.
    - destruct (Qeq_bool (fst t) 1); repeat constructor.
    - apply Forall_forall. intros e He. apply in_map_iff in He. destruct He as ([q [k|]] & <- & I); cbn [factor_sx]; destruct (qty_app q) as (g & l & -> & A).
      + specialize (H q k I). apply flat_der; auto; [discriminate|repeat constructor; intros []| |intros p [<-|[]]; discriminate].
        intros [X|[]]. cbn in X. unfold axis, dims in *. destruct c; cbn in H, X; do 3 (destruct k as [|k]; [discriminate X|]); lia.
      + apply flat_app. exact A.
  Qed.
  Lemma terms_axes q t x k : In t (rate_terms c q) -> In (x, Some k) (snd t) -> k < dims c.
  Proof.
    unfold rate_terms. rewrite in_app_iff. intros [I|I] J.
    - unfold moved in I. apply in_map_iff in I. destruct I as (i & <- & Hi). apply in_seq in Hi. cbn in J. destruct J as [J|[J|[]]]; [discriminate|injection J as <- <-; lia].
    - destruct q; try destruct I. unfold deformed in I. destruct (Nat.eqb a b).
      + apply in_map_iff in I. destruct I as (i & <- & Hi). apply in_seq in Hi. cbn in J. destruct J as [J|[J|[]]]; [discriminate|injection J as <- <-; lia].
      + apply in_flat_map in I. destruct I as (i & Hi & I). apply in_seq in Hi. cbn in I. destruct I as [<-|[<-|[]]]; cbn in J; destruct J as [J|[J|[]]]; try discriminate; injection J as <- <-; lia.
  Qed.
  Lemma statistics_translatable : translatable (stat_S c (const_list enum c)) (pkf_advection c).
  Proof.
    assert (N0 : Permutation (names (stat_S c (const_list enum c))) (names (stat_S c (map (wind c) (winds c))))).
    { unfold names. cbn [s_prognostic s_constant s_constants s_exogenous s_derivatives stat_S].
      do 2 apply Permutation_app_head. apply Permutation_app_tail. apply Permutation_map. apply E. }
    split.
    - unfold pkf_advection. cbn [s_prognostic stat_S]. unfold fields. rewrite !map_map. reflexivity.
    - intros f Hf. cbn [s_prognostic stat_S] in Hf. unfold fields in Hf. apply in_map_iff in Hf. destruct Hf as (q & <- & _). apply qty_app.
    - intros q Hq. cbn [s_constants stat_S]. unfold pkf_advection in Hq. apply in_map_iff in Hq. destruct Hq as (x & <- & _). cbn [snd].
      apply flat_add. apply Forall_forall. intros e He. apply in_map_iff in He. destruct He as (t & <- & Ht). apply term_flat. intros y k. apply (terms_axes x t y k Ht).
    - intros k [].
    - intros g v w H H' C. cbn [s_derivatives stat_S] in H, H'.
      assert (G : forall d, In d (get_derivatives (pkf_advection c)) -> exists g x, d = SDer g [(x, 1)]).
      { assert (B : forallb (fun d => match d with SDer _ [(_, 1)] => true | _ => false end) (get_derivatives (pkf_advection c)) = true) by (destruct c; vm_compute; reflexivity).
        rewrite forallb_forall in B. intros d Hd. specialize (B d Hd). destruct d as [| | | |g0 v0| | | | |]; try discriminate. destruct v0 as [|[x n] [|]]; try discriminate; destruct n as [|[|n]]; try discriminate. eauto. }
      destruct (G _ H) as (g1 & x1 & E1). destruct (G _ H') as (g2 & x2 & E2). injection E1 as <- ->. injection E2 as <- ->.
      specialize (C x1). cbn in C. rewrite String.eqb_refl in C. destruct (String.eqb_spec x2 x1) as [Ex|]; [congruence|discriminate].
    - apply (Permutation_NoDup (Permutation_sym N0)). apply nodupb_ok. destruct c; vm_compute; reflexivity.
    - intros x Hx I. apply (Permutation_in _ N0) in Hx.
      assert (B : forallb (fun x => negb (existsb (String.eqb x) reserved)) (names (stat_S c (map (wind c) (winds c)))) = true) by (destruct c; vm_compute; reflexivity).
      rewrite forallb_forall in B. specialize (B x Hx). apply negb_true_iff in B.
      assert (existsb (String.eqb x) reserved = true); [|congruence]. apply existsb_exists. exists x. split; auto. apply String.eqb_refl.
  Qed.
End System.

(** ** positions *)
Definition qty_eq_dec (a b : qty) : {a = b} + {a <> b}.
Proof. repeat decide equality. Defined.
Fixpoint position {X} (dec : forall a b : X, {a = b} + {a <> b}) (l : list X) (x : X) : option nat :=
  match l with [] => None | y :: l => if dec y x then Some 0 else option_map S (position dec l x) end.
Definition srow (c : advect) (q : qty) : nat := match position qty_eq_dec (statistics_of c) q with Some i => i | None => 0 end.
Definition okq (c : advect) (q : qty) : Prop := match q with QMean | QVar => True | QAsp a b => a <= b /\ b < dims c | QWind k => k < dims c end.
Definition rows (c : advect) : nat := List.length (statistics_of c).
Lemma asp_ok c a b : a < dims c -> b < dims c -> okq c (asp a b).
Proof. intros Ha Hb. unfold asp. destruct (Nat.ltb_spec b a); cbn; lia. Qed.
Lemma asp_sym a b : asp a b = asp b a.
Proof. unfold asp. destruct (Nat.ltb_spec b a), (Nat.ltb_spec a b); try reflexivity; try lia. replace a with b by lia. reflexivity. Qed.
Lemma asp_le a b : a <= b -> asp a b = QAsp a b.
Proof. intros H. unfold asp. destruct (Nat.ltb_spec b a); [lia|reflexivity]. Qed.
Lemma asp_row_lt c a b : a < dims c -> b < dims c -> srow c (asp a b) < rows c.
Proof. intros Ha Hb. destruct c; unfold dims in *; cbn in Ha, Hb; do 3 (destruct a as [|a]; [do 3 (destruct b as [|b]; [vm_compute; lia|]); lia|]); lia. Qed.
Lemma statistics_in c i q : nth_error (statistics_of c) i = Some q -> okq c q /\ (forall k, q <> QWind k) /\ srow c q = i.
Proof.
  intros H. destruct c; cbn in H; unfold okq, dims;
  repeat (destruct i as [|i]; [cbn in H; injection H as <-; repeat split; [try (cbn; lia)..|discriminate]|]); try (destruct i; discriminate H).
Qed.

Open Scope R_scope.
(** the entry (i,j) of the matrix that mixes the rows, from the derivatives [D b k] of the wind [b] along the axis [k] *)
Definition mixz {X} (c : advect) (D : nat -> nat -> X -> R) (i j : nat) (x : X) : R :=
  match nth_error (statistics_of c) i with
  | Some (QAsp a b) => sumk (dims c) (fun k => (if Nat.eqb (srow c (asp a k)) j then 1 else 0) * D b k x + (if Nat.eqb (srow c (asp k b)) j then 1 else 0) * D a k x)
  | _ => 0
  end.
Lemma mixz_sum {X} c (D : nat -> nat -> X -> R) i x (v : nat -> R) :
  sumk (rows c) (fun j => mixz c D i j x * v j) =
  match nth_error (statistics_of c) i with
  | Some (QAsp a b) => sumk (dims c) (fun k => D b k x * v (srow c (asp a k)) + D a k x * v (srow c (asp k b)))
  | _ => 0
  end.
Proof.
  unfold mixz. destruct (nth_error (statistics_of c) i) as [q|] eqn:E; [|rewrite (sumk_ext _ _ (fun _ => 0)) by (intros; ring); apply sumk_zero].
  destruct (statistics_in c i q E) as (Ok & _ & _).
  destruct q as [| |a b|k]; try (rewrite (sumk_ext _ _ (fun _ => 0)) by (intros; ring); apply sumk_zero).
  rewrite (sumk_ext (rows c) _ (fun j => sumk (dims c) (fun k => (if Nat.eqb (srow c (asp a k)) j then 1 else 0) * (D b k x * v j) + (if Nat.eqb (srow c (asp k b)) j then 1 else 0) * (D a k x * v j)))).
  2:{ intros j _. rewrite <- sumk_scale_r. apply sumk_ext. intros; ring. }
  rewrite sumk_swap. apply sumk_ext. intros k Hk. rewrite sumk_plus. destruct Ok as [O1 O2].
  rewrite (sumk_delta (rows c) (fun j => D b k x * v j)) by (apply asp_row_lt; lia). rewrite (sumk_delta (rows c) (fun j => D a k x * v j)) by (apply asp_row_lt; lia). reflexivity.
Qed.
Lemma mixz_bound {X} c (D : nat -> nat -> X -> R) B i j x : 0 <= B -> (forall b k, (b < dims c)%nat -> (k < dims c)%nat -> Rabs (D b k x) <= B) -> Rabs (mixz c D i j x) <= sumk (dims c) (fun _ => 2 * B).
Proof.
  intros PB HD. unfold mixz. assert (P : 0 <= sumk (dims c) (fun _ => 2 * B)).
  { rewrite <- (Rabs_R0). replace 0 with (sumk (dims c) (fun _ => 0)) by apply sumk_zero. apply sumk_bound. intros; rewrite Rabs_R0; lra. }
  destruct (nth_error (statistics_of c) i) as [q|] eqn:E; [|rewrite Rabs_R0; exact P].
  destruct (statistics_in c i q E) as (Ok & _ & _). destruct q as [| |a b|k]; try (rewrite Rabs_R0; exact P). destruct Ok as [O1 O2].
  assert (Y : forall (e : bool) y, Rabs y <= B -> Rabs ((if e then 1 else 0) * y) <= B) by (intros [] y Hy; [rewrite Rmult_1_l; auto|rewrite Rmult_0_l, Rabs_R0; auto]).
  apply sumk_bound. intros k Hk. eapply Rle_trans; [apply Rabs_triang|]. replace (2 * B) with (B + B) by ring. apply Rplus_le_compat; apply Y, HD; lia.
Qed.
Lemma mixz_minus {X Y} c (D : nat -> nat -> X -> R) (D' : nat -> nat -> Y -> R) i j x y :
  mixz c D i j x - mixz c D' i j y = mixz c (fun b k (_ : unit) => D b k x - D' b k y) i j tt.
Proof.
  unfold mixz. destruct (nth_error (statistics_of c) i) as [[| |a b|k]|]; try ring. rewrite sumk_minus. apply sumk_ext. intros; ring.
Qed.

Section Trend.
  Variables (c : advect) (lengths : list R) (shape : list nat) (W : list (list nat -> R)).
  Variables (enum : list sx -> list sx) (x : nat -> R) (ord : list datom -> list datom).
  Variables (rpow : R -> R -> R) (g : @grid RF) (caches : R -> list (string * nat) -> (list nat -> R) -> cache).
  Variable attr : string -> res (list nat -> R).
  Hypothesis AC : advect_class c lengths shape W enum ord g caches attr.
  Notation trend := (generated_trend enum x ord rpow (axes c) g caches attr (pkf_advection c)).
  Definition srho (state : list nat -> R) (e : sx) : list nat -> R :=
    match position sx_eq_dec (fields c) e with
    | Some i => row state i
    | None => match attr (function_keyvar e) with Ok a => a | Err _ => fun _ => 0 end
    end.
  Notation sdelta := (AdvectTrend.delta c x ord g caches).
  Notation mean_of state t := (mean (list nat -> R) a_num a_add a_mul (a_pow rpow) (fun _ => 0) (fun _ => 1) (srho state) (fun _ _ => 0) (sdelta t)).
  Definition qval (state : list nat -> R) (q : qty) : list nat -> R :=
    match q with QWind k => wind_along W k | _ => row state (srow c q) end.
  Lemma rho_qty state q : okq c q -> srho state (qty_sx c q) = qval state q.
  Proof.
    intros H. destruct q as [| |a b|k].
    - unfold srho, qval. clear AC. destruct c; vm_compute; reflexivity.
    - unfold srho, qval. clear AC. destruct c; vm_compute; reflexivity.
    - unfold srho, qval. clear AC. destruct c; cbn in H; do 3 (destruct a as [|a]; [do 3 (destruct b as [|b]; [try (exfalso; lia); vm_compute; reflexivity|]); exfalso; lia|]); exfalso; lia.
    - cbn [qval]. assert (Hn : exists name, nth_error (winds c) k = Some name).
      { destruct (nth_error (winds c) k) eqn:N; eauto. apply nth_error_None in N. destruct c; cbn in N, H; lia. }
      destruct Hn as (name & Hn). cbn [qty_sx]. rewrite (nth_error_nth _ _ "" Hn).
      assert (K : position sx_eq_dec (fields c) (wind c name) = None /\ function_keyvar (wind c name) = name).
      { destruct c; do 4 (destruct k as [|k]; [try discriminate Hn; injection Hn as <-; split; vm_compute; reflexivity|]); destruct k; discriminate Hn. }
      unfold srho. rewrite (proj1 K), (proj2 K), (wind_attr c lengths shape W enum ord g caches attr AC k name Hn). reflexivity.
  Qed.
  Definition fval (state : list nat -> R) (js : list nat) (f : qty * option nat) : R :=
    match snd f with None => qval state (fst f) js | Some k => slope lengths shape k (qval state (fst f)) js end.
  Definition okf (f : qty * option nat) : Prop := okq c (fst f) /\ match snd f with None => True | Some k => (k < dims c)%nat end.
  Lemma mean_qty state t q : mean_of state t (qty_sx c q) = srho state (qty_sx c q).
  Proof. destruct (qty_app c q) as (h & l & -> & _). reflexivity. Qed.
  Lemma mean_factor state t js f : in_range shape js -> okf f -> mean_of state t (factor_sx c f) js = fval state js f.
  Proof.
    intros Hj [H1 H2]. destruct f as [q [k|]]; cbn [fst snd factor_sx fval] in *; unfold fval; cbn [fst snd].
    - cbn [mean]. rewrite rho_qty by auto. assert (Ha : nth_error (axes c) k = Some (axis c k)) by (apply nth_error_nth'; exact H2).
      destruct (axis_code c lengths shape W enum x ord g caches attr AC t k (axis c k) (qval state q) Ha) as (b & Eb & Hb).
      unfold AdvectTrend.delta. rewrite Eb. apply Hb. exact Hj.
    - rewrite mean_qty, rho_qty by auto. reflexivity.
  Qed.
  Definition prod (l : list R) : R := fold_right Rmult 1 l.
  Definition tvalue (state : list nat -> R) (js : list nat) (t : sterm) : R := Q2R (fst t) * prod (map (fval state js) (snd t)).
  Lemma mean_term state t js s : in_range shape js -> (forall f, In f (snd s) -> okf f) -> mean_of state t (term_sx c s) js = tvalue state js s.
  Proof.
    intros Hj H. unfold term_sx, tvalue. cbn [mean].
    assert (G : forall l, (forall f, In f l -> okf f) -> fold_right (@a_mul) (fun _ => 1) (map (mean_of state t) (map (factor_sx c) l)) js = prod (map (fval state js) l)).
    { induction l as [|f l IH]; intros Hl; [reflexivity|]. cbn [map fold_right prod]. unfold a_mul at 1. rewrite mean_factor by (auto; apply Hl; left; auto).
      rewrite IH by (intros; apply Hl; right; auto). reflexivity. }
    destruct (Qeq_bool (fst s) 1) eqn:Q.
    - cbn [app]. rewrite G by auto. apply Qeq_bool_eq, Qeq_eqR in Q. rewrite Q, RMicromega.Q2R_1. ring.
    - cbn [app map fold_right]. unfold a_mul at 1. rewrite G by auto. reflexivity.
  Qed.
  Lemma mean_sum state t js l : mean_of state t (SAdd l) js = fold_right Rplus 0 (map (fun e => mean_of state t e js) l).
  Proof. cbn [mean]. induction l as [|e l IH]; [reflexivity|]. cbn [map fold_right]. unfold a_add at 1. rewrite IH. reflexivity. Qed.
  Lemma terms_ok q s : okq c q -> (forall k, q <> QWind k) -> In s (rate_terms c q) -> forall f, In f (snd s) -> okf f.
  Proof.
    intros Hq Nq. unfold rate_terms. rewrite in_app_iff. intros [I|I] f Hf.
    - unfold moved in I. apply in_map_iff in I. destruct I as (i & <- & Hi). apply in_seq in Hi. cbn in Hf. destruct Hf as [<-|[<-|[]]]; split; cbn [fst snd]; auto; cbn; lia.
    - destruct q as [| |a b|]; try destruct I. destruct Hq as [O1 O2]. unfold deformed in I. destruct (Nat.eqb a b).
      + apply in_map_iff in I. destruct I as (i & <- & Hi). apply in_seq in Hi. cbn in Hf. destruct Hf as [<-|[<-|[]]]; split; cbn [fst snd]; auto; try (apply asp_ok; lia); cbn; lia.
      + apply in_flat_map in I. destruct I as (i & Hi & I). apply in_seq in Hi. cbn in I.
        destruct I as [<-|[<-|[]]]; cbn in Hf; destruct Hf as [<-|[<-|[]]]; split; cbn [fst snd]; auto; try (apply asp_ok; lia); cbn; lia.
  Qed.
  Lemma sum_app l m : fold_right Rplus 0 (l ++ m) = fold_right Rplus 0 l + fold_right Rplus 0 m.
  Proof. induction l as [|y l IH]; cbn; [ring|rewrite IH; ring]. Qed.
  Lemma sum_seq f : fold_right Rplus 0 (map f (seq 0 (dims c))) = sumk (dims c) f.
  Proof. reflexivity. Qed.
  Notation winds_slope := (fun b k js => slope lengths shape k (wind_along W b) js).
  Lemma rate_value state js i q : nth_error (statistics_of c) i = Some q ->
    fold_right Rplus 0 (map (tvalue state js) (rate_terms c q))
    = transported lengths shape (wind_along W) (row state i) js + sumk (rows c) (fun j => mixz c winds_slope i j js * state (j :: js)).
  Proof.
    intros Hi. destruct (statistics_in c i q Hi) as (Oq & Nq & Ri). unfold rate_terms. rewrite map_app, sum_app. f_equal.
    - unfold moved. rewrite map_map, sum_seq. unfold transported, over_axes. rewrite (proj1 (shape_ok c lengths shape W enum ord g caches attr AC)).
      fold (dims c). fold (sumk (dims c) (fun k => wind_along W k js * slope lengths shape k (row state i) js)). rewrite <- sumk_opp. apply sumk_ext. intros k Hk.
      unfold tvalue, fval, prod. cbn [fst snd map fold_right qval]. replace (qval state q) with (row state i) by (destruct q; cbn [qval]; [rewrite Ri; reflexivity..|destruct (Nq k0 eq_refl)]).
      unfold Q2R. cbn. rewrite Rinv_1. ring.
    - rewrite (mixz_sum c winds_slope i js (fun j => state (j :: js))), Hi. destruct q as [| |a b|k]; try reflexivity.
      destruct Oq as [O1 O2]. unfold deformed.
      assert (QV : forall u v, (u < dims c)%nat -> (v < dims c)%nat -> qval state (asp u v) js = state (srow c (asp u v) :: js)).
      { intros u v _ _. unfold asp. destruct (Nat.ltb v u); reflexivity. }
      destruct (Nat.eqb_spec a b) as [<-|Nab].
      + rewrite map_map, sum_seq. apply sumk_ext. intros k Hk. unfold tvalue, fval, prod. cbn [fst snd map fold_right]. cbn [qval]. rewrite QV by lia. rewrite (asp_sym k a).
        unfold Q2R. cbn. rewrite Rinv_1. ring.
      + transitivity (sumk (dims c) (fun k => tvalue state js (1%Q, [(asp a k, None); (QWind b, Some k)]) + tvalue state js (1%Q, [(asp k b, None); (QWind a, Some k)]))).
        * unfold sumk. induction (seq 0 (dims c)) as [|k l IH]; [reflexivity|]. cbn [flat_map app map fold_right]. rewrite IH. ring.
        * apply sumk_ext. intros k Hk. unfold tvalue, fval, prod. cbn [fst snd map fold_right]. cbn [qval]. rewrite !QV by lia.
          rewrite RMicromega.Q2R_1. ring.
  Qed.
  Theorem statistics_trend t state : exists r, trend t state = Ok r /\
    forall i js, (i < rows c)%nat -> in_range shape js ->
      r (i :: js) = transported lengths shape (wind_along W) (row state i) js + sumk (rows c) (fun j => mixz c winds_slope i j js * state (j :: js)).
  Proof.
    pose proof (ad_enum _ _ _ _ _ _ _ _ _ AC) as PE.
    destruct (C29_rows (list nat -> R) a_num a_add a_mul (a_pow rpow) (fun _ => 0) (fun _ => 1)
      (fun v a => @derivative_code RF x ord (axes c) g (caches t v a) v a) attr None
      (srho state) (fun _ _ => 0) (sdelta t) enum PE (pkf_advection c) (stat_S c (const_list enum c)) (map (row state) (seq 0 (rows c)))
      (statistics_ok enum c PE) (statistics_translatable enum c PE)) as (prog & E1 & E2).
    { split.
      - cbn [s_prognostic stat_S]. unfold srho. clear. destruct c; vm_compute; reflexivity.
      - intros f Hf. cbn [s_constant stat_S] in Hf. apply (const_in enum c PE) in Hf. apply in_map_iff in Hf. destruct Hf as (name & <- & Hn).
        apply In_nth_error in Hn. destruct Hn as (k & Hk).
        assert (K : function_keyvar (wind c name) = name /\ (k < dims c)%nat).
        { destruct c; do 4 (destruct k as [|k]; [try discriminate Hk; injection Hk as <-; (split; [reflexivity|unfold dims; cbn; lia])|]); destruct k; discriminate Hk. }
        rewrite (proj1 K), (wind_attr c lengths shape W enum ord g caches attr AC k name Hk). f_equal.
        pose proof (rho_qty state (QWind k) (proj2 K)) as Q. cbn [qty_sx qval] in Q. rewrite (nth_error_nth _ _ "" Hk) in Q. auto.
      - intros k [].
      - intros N. exfalso. apply N. reflexivity.
      - intros f v Hd. cbn [s_derivatives stat_S] in Hd.
        assert (G : exists k, (k < dims c)%nat /\ v = [(axis c k, 1%nat)]).
        { assert (B : forallb (fun d => match d with SDer _ [(a, 1%nat)] => existsb (String.eqb a) (axes c) | _ => false end) (get_derivatives (pkf_advection c)) = true) by (clear; destruct c; vm_compute; reflexivity).
          rewrite forallb_forall in B. specialize (B _ Hd). destruct v as [|[a [|[|m]]] [|]]; try discriminate B. apply existsb_exists in B. destruct B as (a' & Ia & Ea). apply String.eqb_eq in Ea. subst a'.
          apply In_nth_error in Ia. destruct Ia as (k & Hk). exists k. split; [apply nth_error_Some; congruence|]. unfold axis. rewrite (nth_error_nth _ _ "" Hk). reflexivity. }
        destruct G as (k & Hk & ->). assert (Ha : nth_error (axes c) k = Some (axis c k)) by (apply nth_error_nth'; exact Hk).
        destruct (axis_code c lengths shape W enum x ord g caches attr AC t k (axis c k) (srho state f) Ha) as (b & Eb & _). unfold AdvectTrend.delta. rewrite Eb. reflexivity. }
    unfold generated_trend. rewrite (statistics_ok enum c PE). cbn [bind]. rewrite E1. cbn [bind].
    replace (List.length (s_prognostic (stat_S c (const_list enum c)))) with (rows c) by (cbn [s_prognostic stat_S]; unfold fields; rewrite map_length; reflexivity).
    rewrite E2. cbn [bind]. eexists. split; [reflexivity|]. intros i js Hi Hj. unfold stack. cbn [fst].
    destruct (nth_error (statistics_of c) i) as [q|] eqn:Eq; [|apply nth_error_None in Eq; unfold rows in Hi; lia].
    assert (Er : nth_error (map (fun q => mean_of state t (snd q)) (pkf_advection c)) i = Some (mean_of state t (SAdd (map (term_sx c) (rate_terms c q))))).
    { unfold pkf_advection. rewrite map_map. cbn [snd]. exact (map_nth_error (fun q => mean_of state t (SAdd (map (term_sx c) (rate_terms c q)))) i (statistics_of c) Eq). }
    rewrite (nth_error_nth _ _ _ Er). rewrite <- (rate_value state js i q Eq). rewrite mean_sum, map_map. f_equal. apply map_ext_in. intros s Hs.
    destruct (statistics_in c i q Eq) as (Oq & Nq & _). apply mean_term; auto. apply (terms_ok q s Oq Nq Hs).
  Qed.
End Trend.
