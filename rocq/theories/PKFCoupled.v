(** The rates of change of coupled transport (C121). *)
From Coq Require Import List Arith Ring ZArith QArith Qcanon Bool String Permutation Lia.
From Verif Require Import PyBase PyBaseFacts PartialOrderModel TreeModel Reynolds PKFModel PKFSpec PKFAlg PKFTensor PKFTimeSpec PKFOrderSpec PKFRateSpec PKFRateMain PKFMore PKFShape
  PKFClosure PKFLinearSpec PKFLinear PKFTransport PKFTransportMain PKFCoupledSpec.
Import ListNotations.
Close Scope Q_scope.
Close Scope Qc_scope.
Close Scope Z_scope.
Open Scope nat_scope.
Open Scope string_scope.
Open Scope list_scope.

Lemma statistics_fewer {A : RAlg} coords n n' (E : env A) : n' <= n -> statistics coords n E -> statistics coords n' E.
Proof. intros H []. constructor; auto; intros; [apply st_metric; auto; lia|apply st_cov; auto; lia]. Qed.

Section Dynamics.
  Variables (coords : list string) (deps : nat -> list string) (n : nat) (react : nat -> nat -> poly) (source : nat -> poly).
  Notation d := (List.length coords).
  Notation rhs := (coupled_rhs coords deps n react source).
  Notation eqs := (coupled_system coords deps n react source).
  Hypothesis HG : forall i j, given_poly (react i j).
  Hypothesis HQ : forall i, given_poly (source i).
  Lemma coupled_length : List.length eqs = n.
  Proof. unfold coupled_system. rewrite map_length, seq_length. reflexivity. Qed.
  Lemma coupled_nth i : i < n -> nth i eqs [] = rhs i.
  Proof.
    intros H. unfold coupled_system. rewrite (nth_indep _ [] (rhs 0)) by (rewrite map_length, seq_length; exact H).
    rewrite map_nth, seq_nth by exact H. reflexivity.
  Qed.
  Lemma coupled_in i c m : In (c, m) (rhs i) ->
    (exists k, k < d /\ c = (-1)%Q /\ m = [AJet (FExt k (deps k)) []; AJet (FField i) [nth k coords ""]])
    \/ (exists j m', j < n /\ In (c, m') (react i j) /\ m = m' ++ [AJet (FField j) []])
    \/ In (c, m) (source i).
  Proof.
    unfold coupled_rhs. rewrite !in_app_iff. intros [H|[H|H]]; [left|right; left|right; right; exact H].
    - apply in_map_iff in H. destruct H as (k & E & H). apply in_seq in H. injection E as <- <-. exists k. repeat split; lia.
    - apply in_flat_map in H. destruct H as (j & Hj & H). apply in_seq in Hj. apply in_map_iff in H. destruct H as ([x m'] & E & H). injection E as <- <-.
      exists j, m'. split; [lia|]. auto.
  Qed.
  Lemma system_in p : In p eqs -> exists i, i < n /\ p = rhs i.
  Proof. intros H. apply in_map_iff in H. destruct H as (i & <- & H). apply in_seq in H. exists i. split; [lia|reflexivity]. Qed.
  Lemma coupled_user : user_system eqs.
  Proof.
    intros p c m a Hp Hm Ha. rewrite coupled_length. destruct (system_in p Hp) as (i & Hi & ->).
    destruct (coupled_in i c m Hm) as [(k & Hk & -> & ->)|[(j & m' & Hj & H & ->)|H]].
    - destruct Ha as [<-|[<-|[]]]; cbn; auto.
    - apply in_app_iff in Ha. destruct Ha as [Ha|[<-|[]]]; [|cbn; exact Hj]. pose proof (HG i j c m' a H Ha) as G. destruct a; try destruct G; try exact I. destruct f; try destruct G. exact I.
    - pose proof (HQ i c m a H Ha) as G. destruct a; try destruct G; try exact I. destruct f; try destruct G. exact I.
  Qed.
  Lemma coupled_spatial : Forall (spatial_poly coords) eqs.
  Proof.
    apply Forall_forall. intros p Hp c m a Hm Ha. destruct (system_in p Hp) as (i & Hi & ->).
    destruct (coupled_in i c m Hm) as [(k & Hk & -> & ->)|[(j & m' & Hj & H & ->)|H]].
    - destruct Ha as [<-|[<-|[]]]; right; (split; [repeat constructor|]); intros x Hx; [destruct Hx|]. destruct Hx as [<-|[]]. apply nth_In, Hk.
    - apply in_app_iff in Ha. destruct Ha as [Ha|[<-|[]]]; [|right; split; [repeat constructor|intros x []]].
      pose proof (HG i j c m' a H Ha) as G. destruct a; try destruct G; try exact I. destruct f; try destruct G. left. eexists. eexists. reflexivity.
    - pose proof (HQ i c m a H Ha) as G. destruct a; try destruct G; try exact I. destruct f; try destruct G. left. eexists. eexists. reflexivity.
  Qed.
  Lemma given_prognostic p c m : given_poly p -> In (c, m) p -> filter prognostic m = [].
  Proof.
    intros G H. assert (K : forall a, In a m -> prognostic a = false).
    { intros a Ha. specialize (G c m a H Ha). destruct a; try reflexivity. destruct f; try reflexivity. destruct G. }
    clear - K. induction m as [|a m IH]; [reflexivity|]. cbn [filter]. rewrite (K a (or_introl eq_refl)). apply IH. intros b Hb. apply K. right. exact Hb.
  Qed.
  Lemma coupled_linear : Forall linear_poly eqs.
  Proof.
    apply Forall_forall. intros p Hp c m Hm. destruct (system_in p Hp) as (i & Hi & ->).
    destruct (coupled_in i c m Hm) as [(k & Hk & -> & ->)|[(j & m' & Hj & H & ->)|H]].
    - cbn. lia.
    - rewrite filter_app, (given_prognostic _ _ _ (HG i j) H). cbn. lia.
    - rewrite (given_prognostic _ _ _ (HQ i) H). cbn. lia.
  Qed.
End Dynamics.

Section Among.
  Variable n : nat.
  Context {A : RAlg}.
  Add Ring A_ringN : (c_th A).
  Open Scope ra_scope.
  Notation among := (among n (A := A)).
  Lemma among_ext f h : (forall k, (k < n)%nat -> f k = h k) -> among f = among h.
  Proof. intros H. apply asum_ext. intros k Hk. apply in_seq in Hk. apply H. lia. Qed.
  Lemma among_add f h : among (fun k => f k + h k) = among f + among h.
  Proof. apply asum_add. Qed.
  Lemma among_l c f : c * among f = among (fun k => c * f k).
  Proof. apply asum_mul_l. Qed.
  Lemma among_r c f : among f * c = among (fun k => f k * c).
  Proof. apply asum_mul_r. Qed.
  Lemma among_EE f : EE (among f) = among (fun k => EE (f k)).
  Proof. unfold PKFCoupledSpec.among. induction (seq 0 n) as [|k l IH]; cbn [map]; [apply EE_0|]. rewrite !asum_cons, EE_add, IH. reflexivity. Qed.
  Lemma among_dd c f : dd c (among f) = among (fun k => dd c (f k)).
  Proof. apply dd_asum. Qed.
  Lemma among_opp f : - among f = among (fun k => - f k).
  Proof. transitivity (- (1) * among f); [ring|]. rewrite among_l. apply among_ext. intros; ring. Qed.
End Among.

Section Rates.
  Variables (coords : list string) (deps : nat -> list string) (n : nat) (react : nat -> nat -> poly) (source : nat -> poly).
  Notation d := (List.length coords).
  Notation rhs := (coupled_rhs coords deps n react source).
  Notation eqs := (coupled_system coords deps n react source).
  Hypothesis HG : forall i j, given_poly (react i j).
  Hypothesis HQ : forall i, given_poly (source i).
  Context {A : RAlg} (E : env A).
  Add Ring A_ringC : (c_th A).
  Open Scope ra_scope.
  Hypothesis HS : statistics coords n E.
  Hypothesis Hn : (0 < n)%nat.
  Let HS1 : statistics coords 1 E := statistics_fewer coords n 1 E Hn HS.
  Notation along := (along coords deps E).
  Notation shear := (shear coords deps E).
  Notation over := (PKFLinearSpec.over coords (A := A)).
  Notation among := (among n (A := A)).
  Notation r := (r react E).
  Notation cov := (cov E).
  Notation err i := (e_fn E (FErr i)).
  Notation eps i := (e_fn E (FEps i)).
  Notation field i := (e_fn E (FField i)).
  Notation coord a := (nth a coords ""%string).

  (** given expressions are deterministic *)
  Lemma det_qq q : det (cq (Q2Qc q) : A).
  Proof. apply EE_cq. Qed.
  Lemma given_atom a : match a with AJet (FExt _ _) _ | ACst _ => True | _ => False end -> det (av E a).
  Proof.
    destruct a; try (intros []; fail); [destruct f; try (intros []; fail)|]; intros _; cbn [av].
    - unfold det. rewrite EE_dds. f_equal. apply (st_det _ _ _ HS). reflexivity.
    - apply (st_cst _ _ _ HS).
  Qed.
  Lemma given_mono m : (forall a, In a m -> match a with AJet (FExt _ _) _ | ACst _ => True | _ => False end) -> det (mv E m).
  Proof.
    intros G. unfold mv. induction m as [|a m IH]; cbn [fold_right]; [apply EE_1|].
    apply det_mul; [apply given_atom, G; left; reflexivity|apply IH; intros b Hb; apply G; right; exact Hb].
  Qed.
  Lemma given_det p : given_poly p -> det (pv E p).
  Proof.
    intros G. unfold pv. induction p as [|[c m] p IH]; cbn [fold_right fst snd]; [apply det_0|].
    apply det_add; [apply det_mul; [apply det_qq|apply given_mono; intros a; apply (G c m a); left; reflexivity]|].
    apply IH. intros c' m' a' H. apply G with (c := c'). right. exact H.
  Qed.
  Lemma r_det i j : det (r i j).
  Proof. apply given_det, HG. Qed.

  (** *** the Taylor coefficients *)
  Notation P := (t_poly (fun i => field i) (fun i => err i) (fun k dd => e_fn E (FExt k dd)) (e_cst E)).
  Notation M := (t_mono (fun i => field i) (fun i => err i) (fun k dd => e_fn E (FExt k dd)) (e_cst E)).
  Lemma t_cons t p : P (t :: p) = t_add (t_mul (t_const (cq (Q2Qc (fst t)))) (M (snd t))) (P p).
  Proof. reflexivity. Qed.
  Lemma given_t_mono m m' : (forall a, In a m -> match a with AJet (FExt _ _) _ | ACst _ => True | _ => False end) ->
    M (m ++ m') = t_mul (t_const (mv E m)) (M m').
  Proof.
    intros G. induction m as [|a m IH].
    - cbn [app]. unfold mv. cbn [fold_right]. destruct (M m') as [[x y] z]. cbn. apply tri_eq; ring.
    - cbn [app]. change (M (a :: ?l)) with (t_mul (t_atom (fun i => field i) (fun i => err i) (fun k dd => e_fn E (FExt k dd)) (e_cst E) a) (M l)).
      rewrite IH by (intros b Hb; apply G; right; exact Hb). destruct (M m') as [[x y] z].
      change (mv E (a :: m)) with (av E a * mv E m). specialize (G a (or_introl eq_refl)).
      destruct a; try destruct G; [destruct f; try destruct G|]; cbn; apply tri_eq; ring.
  Qed.
  Lemma given_t p : given_poly p -> P p = (pv E p, 0, 0).
  Proof.
    intros G. induction p as [|[c m] p IH]; [reflexivity|]. rewrite t_cons, IH by (intros c' m' a' H; apply G with (c := c'); right; exact H).
    cbn [fst snd]. rewrite <- (app_nil_r m) at 1. rewrite given_t_mono by (intros a; apply (G c m a); left; reflexivity).
    change (pv E ((c, m) :: p)) with (cq (Q2Qc c) * mv E m + pv E p). cbn. apply tri_eq; ring.
  Qed.
  Lemma given_times p j : given_poly p -> P (map (fun t => (fst t, snd t ++ [AJet (FField j) []])) p) = (pv E p * field j, pv E p * err j, 0).
  Proof.
    intros G. induction p as [|[c m] p IH]; cbn [map]; [cbn; apply tri_eq; ring|].
    rewrite t_cons, IH by (intros c' m' a' H; apply G with (c := c'); right; exact H).
    cbn [fst snd]. rewrite given_t_mono by (intros a; apply (G c m a); left; reflexivity).
    change (pv E ((c, m) :: p)) with (cq (Q2Qc c) * mv E m + pv E p). cbn. apply tri_eq; ring.
  Qed.
  Lemma coupled_expansion i : expansion E (rhs i)
    = (- along (field i) + among (fun j => r i j * field j) + pv E (source i), - along (err i) + among (fun j => r i j * err j), 0).
  Proof.
    unfold expansion, coupled_rhs. rewrite !t_poly_app.
    assert (X1 : P (map (fun k => ((-1)%Q, [AJet (FExt k (deps k)) []; AJet (FField i) [coord k]])) (seq 0 d)) = (- along (field i), - along (err i), 0)).
    { unfold PKFLinearSpec.along, PKFLinearSpec.over. induction (seq 0 d) as [|k l IH]; cbn [map].
      - cbn. apply tri_eq; ring.
      - rewrite t_cons, IH. cbn [fst snd]. rewrite qq_m1, !asum_cons. cbn. unfold PKFLinearSpec.wind. apply tri_eq; ring. }
    assert (X2 : P (flat_map (fun j => map (fun t => (fst t, snd t ++ [AJet (FField j) []])) (react i j)) (seq 0 n))
       = (among (fun j => r i j * field j), among (fun j => r i j * err j), 0)).
    { unfold PKFCoupledSpec.among. induction (seq 0 n) as [|j l IH]; [reflexivity|]. cbn [flat_map map]. rewrite t_poly_app, IH, given_times by apply HG.
      rewrite !asum_cons. unfold PKFCoupledSpec.r. cbn. apply tri_eq; ring. }
    rewrite X1, X2, (given_t _ (HQ i)). cbn. apply tri_eq; ring.
  Qed.
  Lemma coupled_error i : (i < n)%nat -> error_rate E eqs i = - along (err i) + among (fun j => r i j * err j).
  Proof. intros Hi. unfold error_rate, taylor1. rewrite coupled_nth by exact Hi. rewrite coupled_expansion. reflexivity. Qed.
  Lemma coupled_mean i : (i < n)%nat -> mean_rate E eqs i = - along (field i) + among (fun j => r i j * field j) + pv E (source i).
  Proof.
    intros Hi. unfold mean_rate, taylor0, taylor1, taylor2_coef. rewrite coupled_nth by exact Hi. rewrite coupled_expansion. cbn [fst snd].
    rewrite !EE_add, !EE_opp, !(along_EE coords deps E HS1), (st_centred _ _ _ HS), EE_0.
    assert (F : forall j, EE (field j) = field j) by (intros j; apply (st_det _ _ _ HS); reflexivity). rewrite F, (given_det _ (HQ i)).
    rewrite !among_EE, (along_0 coords deps E).
    rewrite (among_ext n (fun k => EE (r i k * field k)) (fun k => r i k * field k)) by (intros k _; rewrite EE_det_l, F by apply r_det; reflexivity).
    rewrite (among_ext n (fun k => EE (r i k * err k)) (fun k => 0 * 0)) by (intros k _; rewrite EE_det_l, (st_centred _ _ _ HS) by apply r_det; ring).
    rewrite <- among_l. ring.
  Qed.
  Lemma cov_value i j : (i < n)%nat -> (j < n)%nat -> cov i j = EE (err i * err j).
  Proof.
    intros Hi Hj. unfold PKFCoupledSpec.cov. destruct (Nat.eqb_spec i j) as [<-|]; [apply (st_variance _ _ _ HS)|].
    destruct (Nat.ltb_spec i j); rewrite (st_cov _ _ _ HS) by lia; [reflexivity|]. f_equal. ring.
  Qed.
  Lemma coupled_covariance i j : (i < n)%nat -> (j < n)%nat ->
    covariance_rate E eqs i j = - along (cov i j) + among (fun k => r i k * cov k j + r j k * cov i k).
  Proof.
    intros Hi Hj. unfold covariance_rate. rewrite !coupled_error by assumption. rewrite (cov_value i j Hi Hj).
    replace ((- along (err i) + among (fun j => r i j * err j)) * err j + err i * (- along (err j) + among (fun k => r j k * err k)))
      with (- along (err i * err j) + (among (fun k => r i k * err k) * err j + err i * among (fun k => r j k * err k))) by (rewrite along_mul; ring).
    rewrite EE_add, EE_opp, (along_EE coords deps E HS1), among_r, among_l, <- among_add, among_EE. f_equal. apply among_ext. intros k Hk.
    rewrite EE_add, (cov_value k j Hk Hj), (cov_value i k Hi Hk). rewrite <- !EE_det_l by apply r_det. f_equal; f_equal; ring.
  Qed.
  Lemma cov_diag i : cov i i = e_fn E (FVar i).
  Proof. unfold PKFCoupledSpec.cov. rewrite Nat.eqb_refl. reflexivity. Qed.
  Lemma cov_sym i j : cov i j = cov j i.
  Proof.
    unfold PKFCoupledSpec.cov. rewrite (Nat.eqb_sym j i). destruct (Nat.eqb_spec i j) as [<-|]; [reflexivity|].
    destruct (Nat.ltb_spec i j), (Nat.ltb_spec j i); try lia; reflexivity.
  Qed.
  Lemma cov_det i j : det (cov i j).
  Proof. unfold PKFCoupledSpec.cov. apply (st_det _ _ _ HS). destruct (Nat.eqb i j); [reflexivity|]. destruct (Nat.ltb i j); reflexivity. Qed.
  Lemma isig_det i : det (e_isig E i).
  Proof.
    pose proof (st_isig _ _ _ HS i) as I. pose proof (st_sig_det _ _ _ HS i) as D. unfold det in *.
    transitivity (e_sig E i * e_isig E i * EE (e_isig E i)); [rewrite I; ring|].
    transitivity (e_isig E i * EE (e_sig E i * e_isig E i)); [rewrite EE_det_l by exact D; ring|]. rewrite I, EE_1. ring.
  Qed.

  (** the normalised error *)
  Lemma sig_along_i i : along (e_fn E (FVar i)) = e_sig E i * along (e_sig E i) + e_sig E i * along (e_sig E i).
  Proof. rewrite <- (st_sig _ _ _ HS), along_mul. ring. Qed.
  Lemma isig_along_i i : along (e_isig E i) = - (e_isig E i * e_isig E i * along (e_sig E i)).
  Proof.
    pose proof (st_isig _ _ _ HS i) as I. assert (D : along (e_sig E i * e_isig E i) = 0) by (rewrite I; apply along_1). rewrite along_mul in D.
    transitivity (e_sig E i * e_isig E i * along (e_isig E i)); [rewrite I; ring|].
    transitivity (e_isig E i * (along (e_sig E i) * e_isig E i + e_sig E i * along (e_isig E i)) - e_isig E i * e_isig E i * along (e_sig E i)); [ring|]. rewrite D. ring.
  Qed.
  Lemma coupled_normalised i : (i < n)%nat ->
    normalised_rate E eqs i = - along (eps i) + among (fun j => r i j * relative E i j - r i j * regression E i j * eps i).
  Proof.
    intros Hi. unfold normalised_rate, deviation_rate. rewrite coupled_error, coupled_covariance by assumption. rewrite cov_diag, sig_along_i, (st_eps _ _ _ HS), along_mul, isig_along_i.
    pose proof (st_isig _ _ _ HS i) as I. set (s := e_sig E i) in *. set (is := e_isig E i) in *. set (L := along s) in *.
    assert (H : (cq (Q2Qc (1 # 2)) : A) + cq (Q2Qc (1 # 2)) = 1) by apply qq_half2. set (h := cq (Q2Qc (1 # 2))) in *.
    rewrite (among_ext n (fun k => r i k * cov k i + r i k * cov i k) (fun k => (1 + 1) * (r i k * cov i k))) by (intros k _; rewrite (cov_sym k i); ring).
    rewrite <- among_l.
    transitivity (- (is * along (err i)) + is * among (fun j => r i j * err j) + (h + h) * (s * is) * (is * is * L) * err i
                  - (h + h) * (is * is * is) * among (fun k => r i k * cov i k) * err i); [ring|].
    rewrite H, I.
    transitivity (- (is * along (err i)) + is * is * L * err i + (is * among (fun j => r i j * err j) + - (is * is * is * err i) * among (fun k => r i k * cov i k))); [ring|].
    rewrite !among_l, <- among_add.
    rewrite (among_ext n (fun k => is * (r i k * err k) + - (is * is * is * err i) * (r i k * cov i k)) (fun j => r i j * relative E i j - r i j * regression E i j * (is * err i)));
      [|intros k _; unfold relative, regression; fold is; ring].
    ring.
  Qed.
  Notation g i := (tensor_matrix E FMet i).
  Lemma metric_value_i i a b : (i < n)%nat -> (a < d)%nat -> (b < d)%nat -> g i a b = EE (dd (coord a) (eps i) * dd (coord b) (eps i)).
  Proof.
    intros Hi Ha Hb. unfold tensor_matrix. destruct (Nat.ltb_spec b a).
    - rewrite (st_metric _ _ _ HS) by lia. f_equal. ring.
    - apply (st_metric _ _ _ HS); lia.
  Qed.
  Lemma eps_flat i c : EE (eps i * dd c (eps i)) = 0.
  Proof. apply flat. apply (eps_unit E coords n HS). Qed.
  Lemma eps_flat' i c : EE (dd c (eps i) * eps i) = 0.
  Proof. rewrite <- (eps_flat i c). f_equal. ring. Qed.
  Lemma coupled_metric i a b : (i < n)%nat -> (a < d)%nat -> (b < d)%nat ->
    metric_rate E coords eqs i a b
    = - along (g i a b) - over (fun k => shear a k * g i k b + shear b k * g i a k)
      + among (fun j => EE (dd (coord a) (r i j * relative E i j) * dd (coord b) (eps i)) + EE (dd (coord a) (eps i) * dd (coord b) (r i j * relative E i j))
                        - (r i j * regression E i j + r i j * regression E i j) * g i a b).
  Proof.
    intros Hi Ha Hb. unfold metric_rate. rewrite (coupled_normalised i Hi), !dd_add, !dd_opp, !along_dd, !among_dd, (metric_value_i i a b Hi Ha Hb).
    replace (over (fun k => shear a k * g i k b + shear b k * g i a k))
      with (EE (over (fun k => shear a k * dd (coord k) (eps i)) * dd (coord b) (eps i) + dd (coord a) (eps i) * over (fun k => shear b k * dd (coord k) (eps i)))).
    2:{ rewrite over_r, over_l, <- over_add, over_EE. apply over_ext. intros k Hk. rewrite (metric_value_i i k b Hi Hk Hb), (metric_value_i i a k Hi Ha Hk).
        rewrite EE_add. f_equal; rewrite <- EE_det_l by apply (shear_det coords deps E HS1); f_equal; ring. }
    rewrite <- (along_EE coords deps E HS1), <- EE_opp, <- EE_sub, along_mul.
    set (S1 := over _). set (S2 := over _). set (T := fun c j => dd c (r i j * relative E i j - r i j * regression E i j * eps i)).
    change (among (fun k => dd (coord a) _)) with (among (T (coord a))). change (among (fun k => dd (coord b) _)) with (among (T (coord b))).
    assert (R : among (fun j => EE (dd (coord a) (r i j * relative E i j) * dd (coord b) (eps i)) + EE (dd (coord a) (eps i) * dd (coord b) (r i j * relative E i j))
                        - (r i j * regression E i j + r i j * regression E i j) * EE (dd (coord a) (eps i) * dd (coord b) (eps i)))
        = EE (among (T (coord a)) * dd (coord b) (eps i) + dd (coord a) (eps i) * among (T (coord b)))).
    { rewrite among_r, among_l, <- among_add, among_EE. apply among_ext. intros j Hj. unfold T.
      assert (RD : det (r i j * regression E i j)) by (apply det_mul; [apply r_det|unfold regression; repeat apply det_mul; try apply isig_det; apply cov_det]).
      set (q := r i j * regression E i j) in *. set (x := r i j * relative E i j). rewrite !dd_sub, !(dd_mul _ _ q).
      replace ((dd (coord a) x - (dd (coord a) q * eps i + q * dd (coord a) (eps i))) * dd (coord b) (eps i) + dd (coord a) (eps i) * (dd (coord b) x - (dd (coord b) q * eps i + q * dd (coord b) (eps i))))
        with (dd (coord a) x * dd (coord b) (eps i) + dd (coord a) (eps i) * dd (coord b) x - dd (coord a) q * (eps i * dd (coord b) (eps i))
              - dd (coord b) q * (dd (coord a) (eps i) * eps i) - (q + q) * (dd (coord a) (eps i) * dd (coord b) (eps i))) by ring.
      rewrite !EE_sub, EE_add, (EE_det_l (dd (coord a) q)), (EE_det_l (dd (coord b) q)), (EE_det_l (q + q)) by (first [apply det_dd, RD|apply det_add; exact RD]). rewrite eps_flat, eps_flat'. ring. }
    rewrite R, <- EE_add. f_equal. ring.
  Qed.
End Rates.

Section Main.
  Variables (enum : list mi -> list mi) (enumD : tdict -> tdict) (enumC : edict -> edict)
    (enumF : list (fn * poly) -> list (fn * poly)) (enumU : list fn -> list fn) (coords : list string).
  Hypothesis HR : rearrangements enum enumD enumC enumF enumU.
  Hypothesis Hcoords : NoDup coords.
  Hypothesis Hne : coords <> [].
  Hypothesis Ht : ~ In "t" coords.
  Lemma coupled_main deps n react source : (forall i j, given_poly (react i j)) -> (forall i, given_poly (source i)) ->
    let eqs := coupled_system coords deps n react source in
    exists m, in_metric enum enumD enumC enumF enumU coords eqs [] = Ok m
      /\ map fst m = map time_derivative (described_list coords eqs true FMet)
      /\ forall (A : RAlg) (E : env A), statistics coords n E -> coupled coords deps n react source E m.
  Proof.
    intros HG HQ eqs. pose proof (coupled_user coords deps n react source HG HQ) as HU. pose proof (coupled_spatial coords deps n react source HG HQ) as HS. fold eqs in HU, HS.
    destruct (main_metric_rates coords eqs Hcoords Hne Ht HU HS enum enumD enumC enumF enumU HR []) as (m & Hm & Lm & Vm); [intros l v []|].
    exists m. split; [exact Hm|]. split; [exact Lm|]. intros A E HE.
    assert (Len : List.length eqs = n) by apply coupled_length.
    assert (V : moves E coords eqs m (described_list coords eqs true FMet)) by (apply Vm; [rewrite Len; exact HE|intros l v []]).
    assert (Hf : forall h, In h (described_list coords eqs true FMet) -> rate E coords eqs h = coupled_rate coords deps n react source E h).
    { intros h Hh. apply described_in in Hh. rewrite Len in Hh.
      destruct Hh as [(i & Hi & ->)|[(i & Hi & ->)|[(_ & i & j & Hij & Hj & ->)|(i & a & b & Hi & Hab & Hb & ->)]]]; cbn [rate coupled_rate].
      - apply coupled_mean; auto; lia.
      - unfold eqs. rewrite coupled_covariance, cov_diag by (auto; lia). reflexivity.
      - unfold eqs. rewrite coupled_covariance by (auto; lia). do 2 f_equal. unfold cov. destruct (Nat.eqb_spec i j); [lia|]. destruct (Nat.ltb_spec i j); [reflexivity|lia].
      - unfold eqs. rewrite coupled_metric by (auto; lia).
        assert (T : tensor_matrix E FMet i a b = e_fn E (FMet i a b)) by (unfold tensor_matrix; destruct (Nat.ltb_spec b a); [lia|reflexivity]).
        rewrite T. reflexivity. }
    clear Vm Hm. revert Lm Hf V. unfold moves. generalize (described_list coords eqs true FMet). intros fs Lm Hf V. revert Lm Hf.
    induction V as [|[l x] h s fs Hq _ IH]; intros L Hf l' x' Hin; [destruct Hin|].
    cbn [map fst snd] in *. injection L as -> L. destruct Hin as [E'|Hin].
    - injection E' as <- <-. exists h. split; [reflexivity|]. rewrite Hq. apply Hf. left. reflexivity.
    - apply IH; auto. intros; apply Hf; right; assumption.
  Qed.
End Main.
