(** The trend of a generated finite-difference class as the code of its right-hand sides, and the class of the tangent linear system. *)
From Coq Require Import List Arith ZArith QArith Qreals Reals String Lia Lra Permutation FunctionalExtensionality.
From Verif Require Import PyBase PyBaseFacts Scalars FieldFacts SymModel RandomProofs PDEModel StrModel CodegenModel CodegenSpec CodegenProofs CodegenRun CodegenProps
  FDExprModel FDExprSpec FDExprProofs FDSpec FDReal GridModel GridSpec GridProofs GridMore ConsistSpec ConsistModel ConsistProofs ConsistMain
  ForecastModel ForecastSpec SchemesModel SchemesSpec EnsembleProofs ModelProofs LineModel TangentSpec TangentProofs TangentSysSpec TangentSysProofs TangentSysMain.
Import ListNotations.
Close Scope Q_scope.
Open Scope nat_scope.
Open Scope string_scope.
Open Scope list_scope.
Open Scope R_scope.

Section Grid.
  Variables (coords : list string) (lengths : list R) (shape : list nat) (g : @grid RF) (rpow : R -> R -> R) (kappa : sx -> R) (cst : sx -> list nat -> R).
  Hypothesis ND : NoDup coords.
  Hypothesis LEN : List.length lengths = List.length coords.
  Hypothesis POS : forall L, In L lengths -> 0 < L.
  Hypothesis Hg : @grid_init RF coords (Some shape) (Some lengths) = Ok g.
  Hypothesis POW : forall a n, rpow a (INR n) = a ^ n.
  Notation MN rho delta e := (mean (list nat -> R) a_num a_add a_mul (a_pow rpow) (fun _ => 0) (fun _ => 1) rho (fun c _ => kappa c) delta e).
  Notation ST := (sten coords shape g).
  Notation VAL := (values cst).

  Lemma shape_length : List.length shape = List.length coords.
  Proof. exact (proj1 (grid_valid coords lengths LEN shape g Hg)). Qed.

  Section Class.
    Variables (enum : list sx -> list sx) (x : nat -> R) (eqs : list equation) (S : pdes) (ord : list datom -> list datom).
    Variables (caches : R -> list (string * nat) -> (list nat -> R) -> cache) (attr : string -> res (list nat -> R)).
    Hypothesis GC : generated_class coords shape kappa cst enum eqs S ord caches attr.
    Notation G := (generated_trend enum x ord rpow coords g caches attr eqs).

    Lemma prognostic_evolving : s_prognostic S = evolving eqs.
    Proof.
      pose proof (t_lhs _ _ (gc_names _ _ _ _ _ _ _ _ _ _ GC)) as H. clear GC. unfold evolving. revert H. generalize (s_prognostic S). induction eqs as [|q l IH]; intros [|f r] H; cbn in H; try discriminate; [reflexivity|].
      injection H as H1 H2. cbn. rewrite H1, <- (IH r H2). reflexivity.
    Qed.
    Lemma NoDup_app3 {A} (a b c : list A) : NoDup (a ++ b ++ c) -> NoDup b /\ forall z, In z b -> ~ In z c.
    Proof.
      induction a as [|y a IH]; cbn; intros N; [|inversion N; subst; auto]. induction b as [|y b IHb]; [split; [constructor|intros z []]|].
      cbn in N. inversion N as [|? ? N1 N2]; subst. destruct (IHb N2) as [N3 N4]. split.
      - constructor; auto. intros Q. apply N1. apply in_or_app. auto.
      - intros z [<-|Hz] Q; [apply N1; apply in_or_app; auto|]. exact (N4 z Hz Q).
    Qed.
    Lemma prognostic_NoDup : NoDup (evolving eqs).
    Proof.
      rewrite <- prognostic_evolving. pose proof (t_distinct _ _ (gc_names _ _ _ _ _ _ _ _ _ _ GC)) as H. unfold CodegenSpec.names in H.
      apply NoDup_app3 in H as [H _]. exact (NoDup_map_inv _ _ H).
    Qed.
    Lemma constant_not_prognostic f : In f (s_constant S) -> ~ In f (evolving eqs).
    Proof.
      rewrite <- prognostic_evolving. intros Hf Hp. pose proof (t_distinct _ _ (gc_names _ _ _ _ _ _ _ _ _ _ GC)) as H. unfold CodegenSpec.names in H.
      apply NoDup_app3 in H as [_ H]. apply (H (function_keyvar f)); [apply in_map; exact Hp|]. apply in_or_app. left. apply in_map. exact Hf.
    Qed.

    Lemma trend_value t state : exists r delta, G t state = Ok r /\ (forall v a js, in_range shape js -> delta v a js = ST v a js) /\
      forall k q js, nth_error eqs k = Some q -> r (k :: js) = MN (VAL (evolving eqs) state) delta (snd q) js.
    Proof.
      set (dl := fun v a => match @derivative_code RF x ord coords g (caches t v a) v a with Ok b => b | Err _ => ST v a end).
      assert (CS : forall v ds a, variables coords v = Ok ds -> exists b, @derivative_code RF x ord coords g (caches t v a) v a = Ok b /\
        forall js, in_range shape js -> b js = ST v a js).
      { intros v ds a Hv. destruct (gc_caches _ _ _ _ _ _ _ _ _ _ GC t v a) as (hist & Hh).
        destruct (code_is_shift coords lengths ND LEN POS x ord shape g (caches t v a) hist v ds a (gc_ord _ _ _ _ _ _ _ _ _ _ GC) Hg Hh Hv) as (b & E & Hb).
        exists b. split; [exact E|]. intros js R. rewrite Hb by exact R. unfold sten, terms. rewrite Hv. reflexivity. }
      assert (Hdl : forall v a js, in_range shape js -> dl v a js = ST v a js).
      { intros v a js R. unfold dl. destruct (variables coords v) as [ds|e] eqn:Hv.
        - destruct (CS v ds a Hv) as (b & -> & Hb). auto.
        - unfold derivative_code at 1. rewrite Hv. reflexivity. }
      set (state' := map (row state) (seq 0 (List.length (s_prognostic S)))).
      assert (HO : holds enum S (VAL (evolving eqs) state) (fun c _ => kappa c) dl
        (fun v a => @derivative_code RF x ord coords g (caches t v a) v a) attr None state').
      { split.
        - unfold state'. rewrite prognostic_evolving. apply values_state. apply prognostic_NoDup.
        - intros f Hf. rewrite (gc_functions _ _ _ _ _ _ _ _ _ _ GC f Hf). unfold values. rewrite (proj2 (index_of_None _ _) (constant_not_prognostic f Hf)). reflexivity.
        - exact (gc_constants _ _ _ _ _ _ _ _ _ _ GC).
        - intros N. destruct (N (gc_forcing _ _ _ _ _ _ _ _ _ _ GC)).
        - intros f v Hd. apply (in_derivatives enum eqs S (gc_system _ _ _ _ _ _ _ _ _ _ GC)) in Hd as (_ & q & Hq & Hd).
          destruct (variables_ok coords v) as (ds & Hv); [intros c Hc; apply (gc_space _ _ _ _ _ _ _ _ _ _ GC f v c); [exists q; auto|exact Hc]|].
          unfold dl. destruct (CS v ds (VAL (evolving eqs) state f) Hv) as (b & E & _). rewrite E. reflexivity. }
      destruct (C29_rows (list nat -> R) a_num a_add a_mul (a_pow rpow) (fun _ => 0) (fun _ => 1) _ attr None _ _ _ enum
        (gc_enum _ _ _ _ _ _ _ _ _ _ GC) eqs S state' (gc_system _ _ _ _ _ _ _ _ _ _ GC) (gc_names _ _ _ _ _ _ _ _ _ _ GC) HO) as (prog & Ep & Er).
      eexists _, dl. split; [|split; [exact Hdl|]].
      - unfold generated_trend. rewrite (gc_system _ _ _ _ _ _ _ _ _ _ GC). cbn [bind]. rewrite Ep. cbn [bind]. fold state'. rewrite Er. cbn [bind fst]. reflexivity.
      - intros k q js Hk. cbn [stack]. rewrite (nth_error_nth _ k (fun _ => 0) (x := MN (VAL (evolving eqs) state) dl (snd q))); [reflexivity|].
        exact (map_nth_error _ k eqs Hk).
    Qed.
    Lemma mean_delta rho delta e js : (forall v a js, in_range shape js -> delta v a js = ST v a js) -> in_range shape js -> MN rho delta e js = MN rho ST e js.
    Proof. intros H R. apply mean_agree; auto. Qed.
  End Class.

  Lemma mean_rows P z1 z2 e js : in_range shape js -> (forall k i, (k < List.length P)%nat -> in_range shape i -> z1 (k :: i) = z2 (k :: i)) ->
    MN (VAL P z1) ST e js = MN (VAL P z2) ST e js.
  Proof.
    intros R H. assert (V : forall f i, in_range shape i -> VAL P z1 f i = VAL P z2 f i).
    { intros f i Hi. unfold values. destruct (index_of f P) as [k|] eqn:E; [|reflexivity]. apply index_of_Some in E. apply H; auto. apply nth_error_Some. congruence. }
    apply mean_agree; auto. intros f v _. apply sten_ext; auto. apply shape_length.
  Qed.

  Section Pair.
    Variables (enum enum' : list sx -> list sx) (x x' : nat -> R) (eqs teqs : list equation) (S S' : pdes) (ord ord' : list datom -> list datom).
    Variables (caches caches' : R -> list (string * nat) -> (list nat -> R) -> cache) (attr attr' : string -> res (list nat -> R)).
    Variable pert : sx -> sx.
    Hypothesis GC : generated_class coords shape kappa cst enum eqs S ord caches attr.
    Hypothesis GC' : generated_class coords shape kappa cst enum' (eqs ++ teqs) S' ord' caches' attr'.
    Hypothesis TE : tangent_equations rpow pert eqs teqs.
    Hypothesis PO : forall q, In q eqs -> polynomial (snd q).
    Hypothesis NEW : forall f, In f (evolving eqs) -> ~ occurs eqs (pert f).
    Notation G := (generated_trend enum x ord rpow coords g caches attr eqs).
    Notation G' := (generated_trend enum' x' ord' rpow coords g caches' attr' (eqs ++ teqs)).
    Notation prog := (evolving eqs).
    Notation prog' := (prog ++ map pert prog).
    Notation n := (List.length eqs).
    Notation D := (entries n shape).

    Lemma prog_length : List.length prog = n.
    Proof. apply map_length. Qed.
    Lemma evolving_both : evolving (eqs ++ teqs) = prog'.
    Proof.
      unfold evolving. rewrite map_app. f_equal. unfold tangent_equations in TE. revert TE. generalize (evolving eqs) as vs. clear. intros vs F2.
      induction F2 as [|q q' l l' (f & E & E' & _) F2 IH]; [reflexivity|]. cbn [map]. rewrite IH, E, E'. reflexivity.
    Qed.
    Lemma both_NoDup : NoDup prog'.
    Proof. rewrite <- evolving_both. apply (prognostic_NoDup _ _ _ _ _ _ GC'). Qed.
    Lemma pert_function f : In f prog -> exists h l, pert f = SApp h l.
    Proof.
      intros Hf. destruct (t_fun _ _ (gc_names _ _ _ _ _ _ _ _ _ _ GC') (pert f)) as (h & l & E & _).
      - rewrite (prognostic_evolving _ _ _ _ _ _ GC'), evolving_both. apply in_or_app. right. apply in_map. exact Hf.
      - exists h, l. exact E.
    Qed.
    Lemma eqs_free q : In q eqs -> free prog pert (snd q).
    Proof. intros Hq y Hy Hp. apply in_map_iff in Hp as (f & <- & Hf). apply (NEW f Hf). exists q. auto. Qed.

    Definition gf (t : R) (u : list nat -> R) : list nat -> R := match G t u with Ok r => r | Err _ => u end.
    Definition df (t : R) (u p : list nat -> R) (i : list nat) : R :=
      match i with k :: js => match nth_error eqs k with Some q => MN (VAL prog' (stacked n u p)) ST (lin prog pert (snd q)) js | None => 0 end | [] => 0 end.
    Lemma gf_pure : G = @pure RF (list nat) gf.
    Proof.
      apply functional_extensionality. intros t. apply functional_extensionality. intros u. unfold pure, gf.
      destruct (trend_value enum x eqs S ord caches attr GC t u) as (r & _ & E & _). rewrite E. reflexivity.
    Qed.
    Lemma gf_val t u k q js : nth_error eqs k = Some q -> in_range shape js -> gf t u (k :: js) = MN (VAL prog u) ST (snd q) js.
    Proof.
      intros Hk R. unfold gf. destruct (trend_value enum x eqs S ord caches attr GC t u) as (r & dl & E & Hd & H). rewrite E, (H k q js Hk).
      apply mean_delta; auto.
    Qed.
    Lemma equation_at k : (k < n)%nat -> exists q, nth_error eqs k = Some q /\ In q eqs.
    Proof. intros H. destruct (nth_error eqs k) as [q|] eqn:E; [exists q; split; [reflexivity|eapply nth_error_In; eauto]|apply nth_error_None in E; lia]. Qed.

    Lemma expansion t u : exists A B, 0 <= A /\ 0 <= B /\ forall k js, (k < n)%nat -> in_range shape js ->
      (forall p m, 0 <= m <= 1 -> size D m p -> Rabs (gf t (fun i => u i + p i) (k :: js) - (gf t u (k :: js) + df t u p (k :: js))) <= A * m ^ 2) /\
      (forall p m, 0 <= m -> size D m p -> Rabs (df t u p (k :: js)) <= B * m).
    Proof.
      assert (ONE : forall k q, nth_error eqs k = Some q -> exists A B, 0 <= A /\ 0 <= B /\ forall js, in_range shape js ->
        (forall p m, 0 <= m <= 1 -> size D m p -> Rabs (gf t (fun i => u i + p i) (k :: js) - (gf t u (k :: js) + df t u p (k :: js))) <= A * m ^ 2) /\
        (forall p m, 0 <= m -> size D m p -> Rabs (df t u p (k :: js)) <= B * m)).
      { intros k q Hk. pose proof (nth_error_In _ _ Hk) as Hq.
        destruct (expand_poly coords shape g rpow kappa cst shape_length POW prog pert both_NoDup pert_function u (snd q) (PO q Hq) (eqs_free q Hq))
          as (M & A & B & M0 & A0 & B0 & _ & HA & HB). unfold psize in *. rewrite prog_length in *. exists A, B. split; [exact A0|]. split; [exact B0|].
        intros js R. split; intros p m Hm Hp.
        - rewrite !(gf_val t _ k q js Hk R). cbn [df]. rewrite Hk. exact (HA p m Hm Hp js R).
        - cbn [df]. rewrite Hk. exact (HB p m Hm Hp js R). }
      assert (ALL : forall K, exists A B, 0 <= A /\ 0 <= B /\ forall k js, (k < K)%nat -> (k < n)%nat -> in_range shape js ->
        (forall p m, 0 <= m <= 1 -> size D m p -> Rabs (gf t (fun i => u i + p i) (k :: js) - (gf t u (k :: js) + df t u p (k :: js))) <= A * m ^ 2) /\
        (forall p m, 0 <= m -> size D m p -> Rabs (df t u p (k :: js)) <= B * m)).
      { induction K as [|K (A & B & A0 & B0 & IH)]; [exists 0, 0; repeat split; try lra; lia|].
        destruct (lt_dec K n) as [HK|HK].
        - destruct (equation_at K HK) as (q & Eq & _). destruct (ONE K q Eq) as (A' & B' & A0' & B0' & H).
          exists (A + A'), (B + B'). split; [lra|]. split; [lra|]. intros k js H1 H2 R. destruct (Nat.eq_dec k K) as [->|N].
          + destruct (H js R) as [Ha Hb]. split; intros p m Hm Hp.
            * specialize (Ha p m Hm Hp). pose proof (pow2_ge_0 m). nra.
            * specialize (Hb p m Hm Hp). nra.
          + destruct (IH k js ltac:(lia) H2 R) as [Ha Hb]. split; intros p m Hm Hp.
            * specialize (Ha p m Hm Hp). pose proof (pow2_ge_0 m). nra.
            * specialize (Hb p m Hm Hp). nra.
        - exists A, B. split; [lra|]. split; [lra|]. intros k js H1 H2 R. apply IH; auto. lia. }
      destruct (ALL n) as (A & B & A0 & B0 & H). exists A, B. split; [exact A0|]. split; [exact B0|]. intros k js Hk R. apply H; auto.
    Qed.
    Lemma size_nonneg i m p : D i -> size D m p -> 0 <= m.
    Proof. intros Hi Hp. specialize (Hp i Hi). pose proof (Rabs_pos (p i)). lra. Qed.
    Lemma system_tangent : tangent D gf df.
    Proof.
      split.
      - intros t u. destruct (expansion t u) as (A & B & A0 & B0 & H). exists A, 1. split; [lra|]. intros p m Hm Hp i Hi.
        pose proof (size_nonneg i m p Hi Hp) as M0. destruct Hi as (k & js & -> & Hk & R). apply (proj1 (H k js Hk R)); auto.
      - intros t u c p q i (k & js & -> & Hk & R). cbn [df]. destruct (equation_at k Hk) as (e & Ee & He). rewrite Ee.
        pose proof (lin_linear coords shape g rpow kappa cst shape_length prog pert both_NoDup pert_function u c p q (snd e) js (PO e He) (eqs_free e He) R) as L.
        rewrite prog_length in L. exact L.
      - intros t u. destruct (expansion t u) as (A & B & A0 & B0 & H). exists B. intros p m Hp i Hi.
        pose proof (size_nonneg i m p Hi Hp) as M0. destruct Hi as (k & js & -> & Hk & R). apply (proj2 (H k js Hk R)); auto.
    Qed.
    Lemma entries_bounded p : exists P, size D P p.
    Proof.
      assert (A : forall K, exists P, 0 <= P /\ forall k js, (k < K)%nat -> in_range shape js -> Rabs (p (k :: js)) <= P).
      { induction K as [|K (P & P0 & IH)]; [exists 0; split; [lra|lia]|]. destruct (array_bounded shape (fun js => p (K :: js))) as (M & M0 & HM).
        exists (P + M). split; [lra|]. intros k js Hk R. destruct (Nat.eq_dec k K) as [->|N]; [specialize (HM js R); lra|specialize (IH k js ltac:(lia) R); lra]. }
      destruct (A n) as (P & _ & H). exists P. intros i (k & js & -> & Hk & R). auto.
    Qed.

    (** ** the class of the tangent linear system runs the tangent linear dynamics *)
    Definition similar (zz : list nat + list nat -> R) (z : list nat -> R) : Prop :=
      forall k js, (k < n)%nat -> in_range shape js -> zz (inl (k :: js)) = z (k :: js) /\ zz (inr (k :: js)) = z ((n + k)%nat :: js).
    Lemma tangent_nth k q : nth_error eqs k = Some q -> exists q', nth_error teqs k = Some q' /\ same_value rpow (snd q') (lin prog pert (snd q)).
    Proof.
      unfold tangent_equations in TE. revert TE. generalize (evolving eqs) as vs. clear. intros vs F2. revert k. induction F2 as [|e e' l l' (f & _ & _ & E) F2 IH]; intros [|k] H; cbn in *; try discriminate.
      - injection H as <-. exists e'. auto.
      - auto.
    Qed.
    Lemma trend_similar t zz z : similar zz z -> exists r r', tangent_trend gf df t zz = Ok r /\ G' t z = Ok r' /\ similar r r'.
    Proof.
      intros SI. destruct (trend_value enum' x' (eqs ++ teqs) S' ord' caches' attr' GC' t z) as (r' & dl & E' & Hd & H'). rewrite evolving_both in H'.
      eexists _, r'. split; [reflexivity|]. split; [exact E'|].
      assert (ROW : forall e js, in_range shape js -> MN (VAL prog' (stacked n (fun i => zz (inl i)) (fun i => zz (inr i)))) ST e js = MN (VAL prog' z) ST e js).
      { intros e js R. apply mean_rows; auto. intros k i Hk Hi. rewrite app_length, map_length, prog_length in Hk. cbn [stacked].
        destruct (Nat.ltb_spec k n) as [L|L]; [apply (SI k i L Hi)|]. destruct (SI (k - n)%nat i ltac:(lia) Hi) as [_ Q]. rewrite Q. do 2 f_equal. lia. }
      intros k js Hk R. destruct (equation_at k Hk) as (q & Eq & Hq). cbn [both]. split.
      - rewrite (gf_val t _ k q js Eq R). rewrite (H' k q js) by (rewrite nth_error_app1 by exact Hk; exact Eq).
        rewrite (mean_delta _ dl (snd q) js Hd R), <- ROW by exact R. rewrite <- prog_length. symmetry.
        apply (mean_old coords shape g rpow kappa cst prog pert). apply eqs_free. exact Hq.
      - destruct (tangent_nth k q Eq) as (q' & Eq' & SV). cbn [df]. rewrite Eq.
        rewrite (H' (n + k)%nat q' js) by (rewrite nth_error_app2 by lia; replace (n + k - n)%nat with k by lia; exact Eq').
        rewrite SV, (mean_delta _ dl _ js Hd R). apply ROW. exact R.
    Qed.
    Lemma similar_axpy c zz z rr r : similar zz z -> similar rr r ->
      similar (fun i => zz i + c * rr i) (fun i => z i + c * r i).
    Proof. intros H1 H2 k js Hk R. destruct (H1 k js Hk R) as [-> ->]. destruct (H2 k js Hk R) as [-> ->]. split; reflexivity. Qed.
    Lemma step_similar s t zz z d : similar zz z ->
      res_rel similar (@onestep_fun RF (list nat + list nat) s (tangent_trend gf df) t zz d) (@onestep_fun RF (list nat) s G' t z d).
    Proof.
      intros SI. destruct s; unfold onestep_fun.
      - unfold euler. destruct (trend_similar t zz z SI) as (r & r' & -> & -> & SR). cbn [bind res_rel].
        intros k js Hk R. destruct (SI k js Hk R) as [E1 E2]. destruct (SR k js Hk R) as [E3 E4]. unfold vadd, vscale. rewrite E1, E2, E3, E4. split; reflexivity.
      - unfold rk2. destruct (trend_similar t zz z SI) as (r & r' & -> & -> & SR). cbn [bind].
        match goal with |- context [tangent_trend gf df ?a ?b] => match goal with |- context [G' a ?b'] => assert (S2 : similar b b') end end.
        { intros k js Hk R. destruct (SI k js Hk R) as [E1 E2]. destruct (SR k js Hk R) as [E3 E4]. unfold vadd, vscale. rewrite E1, E2, E3, E4. split; reflexivity. }
        match goal with |- context [tangent_trend gf df ?a _] => destruct (trend_similar a _ _ S2) as (r2 & r2' & -> & -> & SR2) end. cbn [bind res_rel].
        intros k js Hk R. destruct (SI k js Hk R) as [E1 E2]. destruct (SR2 k js Hk R) as [E3 E4]. unfold vadd, vscale. rewrite E1, E2, E3, E4. split; reflexivity.
      - unfold rk4. destruct (trend_similar t zz z SI) as (r & r' & -> & -> & SR). cbn [bind].
        match goal with |- context [tangent_trend gf df ?a ?b] => match goal with |- context [G' a ?b'] => assert (S2 : similar b b') end end.
        { intros k js Hk R. destruct (SI k js Hk R) as [E1 E2]. destruct (SR k js Hk R) as [E3 E4]. unfold vadd, vscale. rewrite E1, E2, E3, E4. split; reflexivity. }
        match goal with |- context [tangent_trend gf df ?a _] => destruct (trend_similar a _ _ S2) as (r2 & r2' & -> & -> & SR2) end. cbn [bind res_rel].
        match goal with |- context [tangent_trend gf df ?a ?b] => match goal with |- context [G' a ?b'] => assert (S3 : similar b b') end end.
        { intros k js Hk R. destruct (SI k js Hk R) as [E1 E2]. destruct (SR2 k js Hk R) as [E3 E4]. unfold vadd, vscale. rewrite E1, E2, E3, E4. split; reflexivity. }
        match goal with |- context [tangent_trend gf df ?a _] => destruct (trend_similar a _ _ S3) as (r3 & r3' & -> & -> & SR3) end. cbn [bind res_rel].
        match goal with |- context [tangent_trend gf df ?a ?b] => match goal with |- context [G' a ?b'] => assert (S4 : similar b b') end end.
        { intros k js Hk R. destruct (SI k js Hk R) as [E1 E2]. destruct (SR3 k js Hk R) as [E3 E4]. unfold vadd, vscale. rewrite E1, E2, E3, E4. split; reflexivity. }
        match goal with |- context [tangent_trend gf df ?a _] => destruct (trend_similar a _ _ S4) as (r4 & r4' & -> & -> & SR4) end. cbn [bind res_rel].
        intros k js Hk R. destruct (SI k js Hk R) as [E1 E2]. destruct (SR k js Hk R) as [E3 E4]. destruct (SR2 k js Hk R) as [E5 E6].
        destruct (SR3 k js Hk R) as [E7 E8]. destruct (SR4 k js Hk R) as [E9 E10]. unfold vadd, vscale. rewrite E1, E2, E3, E4, E5, E6, E7, E8, E9, E10. split; reflexivity.
    Qed.

    Lemma system_tl s w sv l state perts : w <> [] -> saved_list w sv = Some l -> NoDup l ->
      exists C h0, 0 < h0 /\ forall h ens, 0 < h <= h0 ->
        pool_ens Req_EM_T Rminus (@onestep_fun RF (list nat) s) G ens ->
        exists fc tl,
          forecast_tl Req_EM_T Rminus (@onestep_fun RF (list nat) s) G
            (fun st p => @vadd RF (list nat) st (@vscale RF (list nat) h p)) (fun a b => @vdiv RF (list nat) (@vsub RF (list nat) a b) h) ens w state perts sv = Ok (fc, tl) /\
          forecast Req_EM_T Rminus (@onestep_fun RF (list nat) s) G w state sv = Ok fc /\ dkeys tl = l /\
          (forall t, In t l -> In t w -> exists vs, dget Req_EM_T t tl = Some vs /\
             Forall2 (fun p v => exists d z, forecast Req_EM_T Rminus (@onestep_fun RF (list nat) s) G' w (stacked n state p) sv = Ok d /\
               dget Req_EM_T t d = Some z /\ forall k js, (k < n)%nat -> in_range shape js -> Rabs (v (k :: js) - z ((n + k)%nat :: js)) <= C * h) perts vs) /\
          (forall t, In t l -> ~ In t w -> dget Req_EM_T t tl = Some []).
    Proof.
      intros Hw Hl NDl. rewrite gf_pure.
      destruct (tl_converges D gf df system_tangent s w sv Hw ltac:(intros ->; discriminate) state perts l Hl NDl ltac:(intros; apply entries_bounded)) as (C & h0 & H0 & H).
      exists C, h0. split; [exact H0|]. intros h ens Hh Hens. destruct (H h ens Hh Hens) as (fc & tl & E & Ef & K & V & N).
      exists fc, tl. split; [exact E|]. split; [exact Ef|]. split; [exact K|]. split; [|exact N].
      intros t Ht Hin. destruct (V t Ht Hin) as (vs & Gv & F2). exists vs. split; [exact Gv|].
      clear - F2 GC GC' TE PO NEW ND LEN POS Hg POW. induction F2 as [|p v ps vs (d & z & Ed & Gz & A) F2 IH]; constructor; [|exact IH].
      pose proof (forecast_sim Req_EM_T Rminus (@onestep_fun RF (list nat + list nat) s) (tangent_trend gf df) (@onestep_fun RF (list nat) s) G' similar) as SIM.
      specialize (SIM ltac:(intros; apply step_similar; assumption) w sv (both state p) (stacked n state p)).
      assert (S0 : similar (both state p) (stacked n state p)).
      { intros k js Hk R. cbn [both stacked]. rewrite (proj2 (Nat.ltb_lt k n) Hk), (proj2 (Nat.ltb_ge (n + k) n)) by lia. split; [reflexivity|]. do 2 f_equal. lia. }
      specialize (SIM S0). rewrite Ed in SIM.
      destruct (forecast Req_EM_T Rminus (@onestep_fun RF (list nat) s) G' w (stacked n state p) sv) as [d'|] eqn:E'; [|destruct SIM]. cbn in SIM.
      destruct (dget_rel Req_EM_T _ _ _ SIM t z Gz) as (z' & Gz' & SZ). exists d', z'. split; [reflexivity|]. split; [exact Gz'|].
      intros k js Hk R. destruct (SZ k js Hk R) as [_ <-]. apply (A (k :: js)). exists k, js. auto.
    Qed.
  End Pair.
End Grid.
