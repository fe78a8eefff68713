(** The trend of the generated class is second-order consistent. *)
From Coq Require Import List Arith ZArith Bool Reals QArith Qreals String Lia Lra Permutation.
From Verif Require Import PyBase PyBaseFacts Scalars FieldFacts SymModel RandomProofs FDExprModel FDExprSpec FDReal PDEModel CodegenModel
  StrModel GridModel GridSpec CodegenSpec CodegenProofs CodegenRun ConsistSpec ConsistModel ConsistProofs ConsistMain ConsistTrend.
Import ListNotations.
Close Scope Q_scope.
Open Scope nat_scope.
Open Scope list_scope.
Open Scope R_scope.

Section Final.
  Variables (coords : list string) (lengths : list R).
  Hypothesis ND : NoDup coords.
  Hypothesis LEN : List.length lengths = List.length coords.
  Hypothesis POS : forall L, In L lengths -> 0 < L.

  (** one derivative, uniformly in the grid *)
  Theorem derivative_consistent (Wf : multi -> point -> R) v : smooth (List.length coords) Wf -> periodic lengths (Wf none) ->
    (forall c, In c (map fst v) -> In c coords) ->
    exists C, forall x ord shape (g : @grid RF) d hist a,
      (forall l, Permutation (ord l) l) -> @grid_init RF coords (Some shape) (Some lengths) = Ok g ->
      after_history coords shape hist d ->
      (forall js, in_range shape js -> a js = Wf none (grid_point (g_dx g) js)) ->
      exists b, @derivative_code RF x ord coords g d v a = Ok b /\
        forall js, in_range shape js -> Rabs (b js - Wf (orders coords v) (grid_point (g_dx g) js)) <= C * largest (g_dx g) ^ 2.
  Proof.
    intros Sm Pe Hv. destruct (variables_ok coords v Hv) as [ds Eds].
    destruct (total_orders coords ND v ds Eds) as [To Hi].
    destruct (partials_consistent (List.length coords) Wf Sm ds Hi none) as (C & _ & HC).
    exists C. intros x ord shape g d hist a Ho Hg Hd Ha.
    destruct (code_is_partials coords lengths ND LEN POS x ord shape g d hist v ds (Wf none) a Ho Hg Hd Eds Pe Ha) as (b & Eb & Hb).
    exists b. split; auto. intros js R. rewrite Hb by auto.
    destruct (grid_valid coords lengths LEN shape g Hg) as [Ls Hn].
    destruct (grid_spacings coords lengths ND LEN shape g Hg Ls Hn) as [_ Ed].
    pose proof (HC (@spacing RF g) (largest (g_dx g))) as H.
    replace (addm none (total ds)) with (orders coords v) in H by (rewrite addm_comm, addm_none; auto).
    apply H. intros i Li. unfold spacing. rewrite Ed. apply (spacing_bounds coords lengths LEN POS); auto.
  Qed.

  Variables (rpow : R -> R -> R) (W : sx -> multi -> point -> R) (kappa : sx -> R).
  Hypothesis POW : forall a n, rpow a (INR n) = a ^ n.
  Variables (enum : list sx -> list sx) (E : forall l, Permutation (enum l) l) (eqs : list equation) (S : pdes).
  Hypothesis B : pde_system enum eqs = Ok S.
  Hypothesis T : translatable S eqs.
  Hypothesis AL : forall q, In q eqs -> algebraic coords rpow W kappa (snd q).
  Hypothesis SM : forall f l, occurs eqs (SApp f l) -> smooth (List.length coords) (W (SApp f l)) /\ periodic lengths (W (SApp f l) none).
  Hypothesis DV : forall f v c, occurs eqs (SDer f v) -> In c (map fst v) -> In c coords.

  Record inst := mkInst {
    i_x : nat -> R; i_ord : list datom -> list datom; i_shape : list nat; i_g : @grid RF;
    i_cache : list (string * nat) -> (list nat -> R) -> cache; i_rho : sx -> list nat -> R;
    i_perm : forall l, Permutation (i_ord l) l;
    i_init : @grid_init RF coords (Some i_shape) (Some lengths) = Ok i_g;
    i_hist : forall v a, exists hist, after_history coords i_shape hist (i_cache v a);
    i_sample : forall f l js, occurs eqs (SApp f l) -> in_range i_shape js ->
       i_rho (SApp f l) js = W (SApp f l) none (grid_point (g_dx i_g) js) }.
  Definition i_disc (i : inst) v a := @derivative_code RF (i_x i) (i_ord i) coords (i_g i) (i_cache i v a) v a.
  Definition i_delta (i : inst) v a := match i_disc i v a with Ok b => b | Err _ => a end.

  Lemma occurs_derivative f v : occurs eqs (SDer f v) -> exists n l, f = SApp n l /\ occurs eqs f.
  Proof.
    intros (q & Hq & Hs).
    assert (Hd : In (SDer f v) (s_derivatives S)).
    { apply (in_derivatives enum eqs S B). split; [reflexivity|]. eauto. }
    destruct (nice_derivative enum eqs S B T _ Hd) as (n & l & v' & Eq & _). injection Eq as -> <-.
    exists n, l. split; auto. exists q. split; auto.
    apply (subterms_trans (SDer (SApp n l) v) (snd q) Hs). right. apply in_or_app. left. left. auto.
  Qed.

  Lemma disc_ok (i : inst) f v : occurs eqs (SDer f v) -> i_disc i v (i_rho i f) = Ok (i_delta i v (i_rho i f)).
  Proof.
    intros O. destruct (occurs_derivative f v O) as (n & l & -> & Of). destruct (SM n l Of) as [Sm Pe].
    destruct (derivative_consistent (W (SApp n l)) v Sm Pe (fun c => DV _ v c O)) as (C & HC).
    destruct (i_hist i v (i_rho i (SApp n l))) as [hist Hh].
    destruct (HC (i_x i) (i_ord i) (i_shape i) (i_g i) (i_cache i v (i_rho i (SApp n l))) hist (i_rho i (SApp n l)) (i_perm i) (i_init i) Hh)
      as (b & Eb & _); [intros js R; apply (i_sample i); auto|].
    unfold i_delta, i_disc. rewrite Eb. reflexivity.
  Qed.

  Theorem trend_consistent : exists C, forall (i : inst) attr exogenous state,
    state = map (i_rho i) (s_prognostic S) ->
    (forall f, In f (s_constant S) -> attr (function_keyvar f) = Ok (i_rho i f)) ->
    (forall c, In c (s_constants S) -> attr (constant_keyvar c) = Ok (fun _ => kappa c)) ->
    (s_exogenous S <> [] -> exogenous = Some (map (i_rho i) (enum (s_exogenous S)))) ->
    exists prog rows, trend_program enum S eqs = Ok prog /\
      run_trend (list nat -> R) a_num a_add a_mul (a_pow rpow) (fun _ => 0) (fun _ => 1) (i_disc i) attr exogenous prog state = Ok (rows, state) /\
      Forall2 (fun q row => forall js, in_range (i_shape i) js ->
        Rabs (row js - exact coords rpow W kappa (snd q) (grid_point (g_dx (i_g i)) js)) <= C * largest (g_dx (i_g i)) ^ 2) eqs rows.
  Proof.
    set (h := fun i : inst => largest (g_dx (i_g i))).
    set (P := fun (i : inst) js => in_range (i_shape i) js).
    set (pt := fun (i : inst) js => grid_point (g_dx (i_g i)) js).
    assert (HH : forall i, 0 <= h i <= largest lengths).
    { intros i. unfold h. split; [apply largest_pos|]. destruct (grid_valid coords lengths LEN _ _ (i_init i)) as [Ls Hn].
      destruct (grid_spacings coords lengths ND LEN _ _ (i_init i) Ls Hn) as [_ Ed].
      rewrite Ed. apply (largest_bound coords lengths LEN POS); auto. }
    assert (FI : forall q, In q eqs -> fine coords W inst h P pt i_rho i_delta (snd q)).
    { intros q Hq. split.
      - intros f l Hf. assert (O : occurs eqs (SApp f l)) by (exists q; auto). destruct (SM f l O) as [[_ Bd] _].
        split; [apply Bd|]. intros i js R. apply (i_sample i); auto.
      - intros f v Hf. assert (O : occurs eqs (SDer f v)) by (exists q; auto).
        destruct (occurs_derivative f v O) as (n & l & -> & Of). destruct (SM n l Of) as [Sm Pe]. split; [apply (proj2 Sm)|].
        destruct (derivative_consistent (W (SApp n l)) v Sm Pe (fun c => DV _ v c O)) as (C & HC). exists C.
        intros i js R. destruct (i_hist i v (i_rho i (SApp n l))) as [hist Hh].
        destruct (HC (i_x i) (i_ord i) (i_shape i) (i_g i) (i_cache i v (i_rho i (SApp n l))) hist (i_rho i (SApp n l)) (i_perm i) (i_init i) Hh)
          as (b & Eb & Hb); [intros js' R'; apply (i_sample i); auto|].
        unfold i_delta, i_disc. rewrite Eb. apply Hb. exact R. }
    assert (U : exists C, forall q, In q eqs -> forall (i : inst) js, P i js ->
       Rabs (mean (list nat -> R) a_num a_add a_mul (a_pow rpow) (fun _ => 0) (fun _ => 1) (i_rho i) (fun c _ => kappa c) (i_delta i) (snd q) js
             - exact coords rpow W kappa (snd q) (pt i js)) <= C * h i ^ 2).
    { clear B T SM DV. induction eqs as [|q l IH]; [exists 0; intros q []|].
      destruct (mean_close coords rpow W kappa POW inst h P pt i_rho i_delta (largest lengths) HH (snd q)) as [_ (C1 & P1 & H1)];
        [apply AL; left; auto|apply FI; left; auto|].
      destruct IH as (C2 & H2); [intros; apply AL; right; auto|intros; apply FI; right; auto|].
      exists (Rmax C1 C2). intros q' [<-|Hq] i js R.
      - eapply Rle_trans; [apply H1; auto|]. apply Rmult_le_compat_r; [apply sq_pos|apply Rmax_l].
      - eapply Rle_trans; [apply H2; auto|]. apply Rmult_le_compat_r; [apply sq_pos|apply Rmax_r]. }
    destruct U as (C & HC). exists C. intros i attr exogenous state Hs Hc Hk Hx.
    assert (HO : holds enum S (i_rho i) (fun c _ => kappa c) (i_delta i) (i_disc i) attr exogenous state).
    { split; auto. intros f v Hd. apply disc_ok. apply (in_derivatives enum eqs S B) in Hd as (_ & q & Hq & Hd). exists q. auto. }
    pose proof (trend_correct (list nat -> R) a_num a_add a_mul (a_pow rpow) (fun _ => 0) (fun _ => 1) (i_disc i) attr exogenous (i_rho i)
      (fun c _ => kappa c) (i_delta i) enum E eqs S state B T HO) as [H1 H2].
    do 2 eexists. split; [exact H1|]. split; [exact H2|]. rewrite map_map.
    assert (G : forall l, incl l eqs -> Forall2 (fun q row => forall js, in_range (i_shape i) js ->
        Rabs (row js - exact coords rpow W kappa (snd q) (grid_point (g_dx (i_g i)) js)) <= C * largest (g_dx (i_g i)) ^ 2) l
        (map (fun q => mean (list nat -> R) a_num a_add a_mul (a_pow rpow) (fun _ => 0) (fun _ => 1) (i_rho i) (fun c _ => kappa c) (i_delta i) (snd q)) l)).
    { induction l as [|q l IH]; intros I; constructor; [|apply IH; intros y Hy; apply I; right; auto].
      intros js R. apply (HC q); auto. apply I. left. auto. }
    apply G. apply incl_refl.
  Qed.
End Final.
