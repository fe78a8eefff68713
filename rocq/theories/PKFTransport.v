(** The rates of change of transport (C112). *)
From Coq Require Import List Arith Ring ZArith QArith Qcanon Bool String Permutation Lia.
From Verif Require Import PyBase PyBaseFacts PartialOrderModel TreeModel Reynolds PKFModel PKFSpec PKFAlg PKFTensor PKFTimeSpec PKFOrderSpec PKFRateSpec PKFRateMain PKFMore PKFShape
  PKFLinearSpec PKFLinear.
Import ListNotations.
Close Scope Q_scope.
Close Scope Qc_scope.
Close Scope Z_scope.
Open Scope nat_scope.
Open Scope string_scope.
Open Scope list_scope.

(** *** the dynamics *)
Section Dynamics.
  Variables (coords : list string) (deps : nat -> list string) (growth source : option (list string)).
  Notation d := (List.length coords).
  Notation rhs := (transport_rhs coords deps growth source).
  Lemma rhs_in c m : In (c, m) rhs ->
    (exists k, k < d /\ c = (-1)%Q /\ m = [AJet (FExt k (deps k)) []; AJet (FField 0) [nth k coords ""]])
    \/ (exists l, growth = Some l /\ c = 1%Q /\ m = [AJet (FExt d l) []; AJet (FField 0) []])
    \/ (exists l, source = Some l /\ c = 1%Q /\ m = [AJet (FExt (S d) l) []]).
  Proof.
    unfold transport_rhs. rewrite !in_app_iff. intros [H|[H|H]].
    - left. apply in_map_iff in H. destruct H as (k & E & H). apply in_seq in H. injection E as <- <-. exists k. repeat split; lia.
    - right. left. destruct growth as [l|]; [|destruct H]. destruct H as [E|[]]. injection E as <- <-. exists l. auto.
    - right. right. destruct source as [l|]; [|destruct H]. destruct H as [E|[]]. injection E as <- <-. exists l. auto.
  Qed.
  Ltac cases H := destruct (rhs_in _ _ H) as [(k & Hk & -> & ->)|[(l & _ & -> & ->)|(l & _ & -> & ->)]].
  Lemma rhs_user : user_system [rhs].
  Proof. intros p c m a [<-|[]] Hm Ha. cases Hm; repeat (destruct Ha as [<-|Ha]; [cbn; auto with arith|]); destruct Ha. Qed.
  Lemma rhs_spatial : Forall (spatial_poly coords) [rhs].
  Proof.
    constructor; [|constructor]. intros c m a Hm Ha. cases Hm.
    - destruct Ha as [<-|[<-|[]]]; right; (split; [repeat constructor|]); intros x Hx; [destruct Hx|]. destruct Hx as [<-|[]]. apply nth_In, Hk.
    - destruct Ha as [<-|[<-|[]]]; right; (split; [repeat constructor|]); intros x [].
    - destruct Ha as [<-|[]]; right; (split; [repeat constructor|]); intros x [].
  Qed.
  Lemma rhs_order : Forall (order_at_most 1) [rhs].
  Proof.
    constructor; [|constructor]. intros c m i w Hm Ha. cases Hm; repeat (destruct Ha as [E|Ha]; [try discriminate; injection E as _ <-; cbn; lia|]); destruct Ha.
  Qed.
  Lemma rhs_linear : Forall linear_poly [rhs].
  Proof. constructor; [|constructor]. intros c m Hm. cases Hm; cbn; lia. Qed.
End Dynamics.

Section Rates.
  Variables (coords : list string) (deps : nat -> list string) (growth source : option (list string)).
  Notation d := (List.length coords).
  Notation rhs := (transport_rhs coords deps growth source).
  Context {A : RAlg} (E : env A).
  Add Ring A_ringT : (c_th A).
  Open Scope ra_scope.
  Hypothesis HS : statistics coords 1 E.
  Notation along := (along coords deps E).
  Notation wind := (wind deps E).
  Notation shear := (shear coords deps E).
  Notation over := (PKFLinearSpec.over coords (A := A)).
  Notation gr := (growth_rate coords growth E).
  Notation sr := (source_rate coords source E).
  Notation err := (e_fn E (FErr 0)).
  Notation eps := (e_fn E (FEps 0)).
  Notation coord a := (nth a coords ""%string).
  Notation g := (tensor_matrix E FMet 0).

  Lemma wind_det k : det (wind k).
  Proof. apply (st_det _ _ _ HS). reflexivity. Qed.
  Lemma gr_det : det gr.
  Proof. unfold growth_rate. destruct growth; [apply (st_det _ _ _ HS); reflexivity|apply det_0]. Qed.
  Lemma sr_det : det sr.
  Proof. unfold source_rate. destruct source; [apply (st_det _ _ _ HS); reflexivity|apply det_0]. Qed.

  Lemma over_ext f h : (forall k, (k < d)%nat -> f k = h k) -> over f = over h.
  Proof. intros H. apply asum_ext. intros k Hk. apply in_seq in Hk. apply H. lia. Qed.
  Lemma over_add f h : over (fun k => f k + h k) = over f + over h.
  Proof. apply asum_add. Qed.
  Lemma over_l c f : c * over f = over (fun k => c * f k).
  Proof. apply asum_mul_l. Qed.
  Lemma over_r c f : over f * c = over (fun k => f k * c).
  Proof. apply asum_mul_r. Qed.
  Lemma over_EE f : EE (over f) = over (fun k => EE (f k)).
  Proof. unfold PKFLinearSpec.over. induction (seq 0 d) as [|k l IH]; cbn [map]; [apply EE_0|]. rewrite !asum_cons, EE_add, IH. reflexivity. Qed.
  Lemma over_dd c f : dd c (over f) = over (fun k => dd c (f k)).
  Proof. apply dd_asum. Qed.
  Lemma over_swap (f : nat -> nat -> A) : over (fun k => over (fun l => f k l)) = over (fun l => over (fun k => f k l)).
  Proof. apply (asum_swap f). Qed.

  Lemma along_add x y : along (x + y) = along x + along y.
  Proof. unfold PKFLinearSpec.along. rewrite <- over_add. apply over_ext. intros k _. rewrite dd_add. ring. Qed.
  Lemma along_mul x y : along (x * y) = along x * y + x * along y.
  Proof.
    unfold PKFLinearSpec.along. rewrite over_r, over_l, <- over_add. apply over_ext. intros k _. rewrite dd_mul. ring.
  Qed.
  Lemma along_EE x : EE (along x) = along (EE x).
  Proof. unfold PKFLinearSpec.along. rewrite over_EE. apply over_ext. intros k _. rewrite EE_det_l by apply wind_det. rewrite EE_dd. reflexivity. Qed.
  Lemma along_cq q : along (cq q) = 0.
  Proof. unfold PKFLinearSpec.along, PKFLinearSpec.over. apply asum_zero. intros k _. rewrite dd_cq. ring. Qed.
  Lemma along_0 : along 0 = 0.
  Proof. rewrite <- cq_0 at 1. apply along_cq. Qed.
  Lemma along_1 : along 1 = 0.
  Proof. rewrite <- cq_1 at 1. apply along_cq. Qed.
  Lemma along_det x : det x -> det (along x).
  Proof. unfold det. intros H. rewrite along_EE, H. reflexivity. Qed.
  (** a derivative of w . grad x *)
  Lemma along_dd a x : dd (coord a) (along x) = along (dd (coord a) x) + over (fun k => shear a k * dd (coord k) x).
  Proof.
    unfold PKFLinearSpec.along, PKFLinearSpec.shear. rewrite over_dd, <- over_add. apply over_ext. intros k _. rewrite dd_mul, (dd_comm _ (coord a)). ring.
  Qed.

  (** *** the Taylor coefficients *)
  Lemma tri_eq (x y z x' y' z' : A) : x = x' -> y = y' -> z = z' -> (x, y, z) = (x', y', z').
  Proof. intros -> -> ->. reflexivity. Qed.
  Lemma t_poly_app mean error ext cst p q :
    @t_poly A mean error ext cst (p ++ q) = t_add (t_poly mean error ext cst p) (t_poly mean error ext cst q).
  Proof.
    induction p as [|t p IH]; cbn [app t_poly fold_right].
    - unfold t_poly. cbn [fold_right]. destruct (fold_right _ _ q) as [[x y] z]. cbn. apply tri_eq; ring.
    - change (fold_right (fun t s => t_add (t_mul (t_const (cq (Q2Qc (fst t)))) (t_mono mean error ext cst (snd t))) s) (t_const 0) ?l) with (t_poly mean error ext cst l).
      rewrite IH. destruct (t_poly mean error ext cst p) as [[x y] z], (t_poly mean error ext cst q) as [[x' y'] z'], (t_mul _ _) as [[u v] w].
      cbn. apply tri_eq; ring.
  Qed.
  Lemma expansion_is : expansion E rhs
    = (- along (e_fn E (FField 0)) + gr * e_fn E (FField 0) + sr, - along err + gr * err, 0).
  Proof.
    unfold expansion, transport_rhs. rewrite !t_poly_app.
    set (P := t_poly _ _ _ _). assert (X1 : P (map (fun k => ((-1)%Q, [AJet (FExt k (deps k)) []; AJet (FField 0) [coord k]])) (seq 0 d))
                 = (- along (e_fn E (FField 0)), - along err, 0)).
    { unfold PKFLinearSpec.along, PKFLinearSpec.over, P. induction (seq 0 d) as [|k l IH]; cbn [map].
      - cbn. apply tri_eq; ring.
      - change (t_poly ?a ?b ?c ?e (?t :: ?p)) with (t_add (t_mul (t_const (cq (Q2Qc (fst t)))) (t_mono a b c e (snd t))) (t_poly a b c e p)).
        rewrite IH. cbn [fst snd]. rewrite qq_m1, !asum_cons. cbn. unfold PKFLinearSpec.wind. apply tri_eq; ring. }
    assert (X2 : P (match growth with None => [] | Some l => [(1%Q, [AJet (FExt d l) []; AJet (FField 0) []])] end) = (gr * e_fn E (FField 0), gr * err, 0)).
    { unfold P, growth_rate. destruct growth; unfold t_poly; cbn [fold_right fst snd]; rewrite ?qq_1; cbn; apply tri_eq; ring. }
    assert (X3 : P (match source with None => [] | Some l => [(1%Q, [AJet (FExt (S d) l) []])] end) = (sr, 0, 0)).
    { unfold P, source_rate. destruct source; unfold t_poly; cbn [fold_right fst snd]; rewrite ?qq_1; cbn; apply tri_eq; ring. }
    rewrite X1, X2, X3. cbn. apply tri_eq; ring.
  Qed.
  Lemma error_is : error_rate E [rhs] 0 = - along err + gr * err.
  Proof. unfold error_rate, taylor1. cbn [nth]. rewrite expansion_is. reflexivity. Qed.
  Lemma field_det : det (e_fn E (FField 0)).
  Proof. apply (st_det _ _ _ HS). reflexivity. Qed.
  Lemma mean_is : mean_rate E [rhs] 0 = - along (e_fn E (FField 0)) + gr * e_fn E (FField 0) + sr.
  Proof.
    unfold mean_rate, taylor0, taylor1, taylor2_coef. cbn [nth]. rewrite expansion_is. cbn [fst snd].
    rewrite !EE_add, !EE_opp, !along_EE, !EE_det_l by apply gr_det. rewrite (st_centred _ _ _ HS), field_det, sr_det, along_0, EE_0. ring.
  Qed.
  Lemma variance_is : covariance_rate E [rhs] 0 0 = - along (e_fn E (FVar 0)) + (gr + gr) * e_fn E (FVar 0).
  Proof.
    unfold covariance_rate. rewrite error_is, (st_variance _ _ _ HS).
    replace ((- along err + gr * err) * err + err * (- along err + gr * err)) with (- along (err * err) + (gr + gr) * (err * err))
      by (rewrite along_mul; ring).
    rewrite EE_add, EE_opp, along_EE, (EE_det_l (gr + gr)) by (apply det_add; apply gr_det). reflexivity.
  Qed.
  (** the normalised error is transported *)
  Lemma sig_along : along (e_fn E (FVar 0)) = e_sig E 0 * along (e_sig E 0) + e_sig E 0 * along (e_sig E 0).
  Proof. rewrite <- (st_sig _ _ _ HS), along_mul. ring. Qed.
  Lemma isig_along : along (e_isig E 0) = - (e_isig E 0 * e_isig E 0 * along (e_sig E 0)).
  Proof.
    pose proof (st_isig _ _ _ HS 0) as I. assert (D : along (e_sig E 0 * e_isig E 0) = 0) by (rewrite I; apply along_1). rewrite along_mul in D.
    transitivity (e_sig E 0 * e_isig E 0 * along (e_isig E 0)); [rewrite I; ring|].
    transitivity (e_isig E 0 * (along (e_sig E 0) * e_isig E 0 + e_sig E 0 * along (e_isig E 0)) - e_isig E 0 * e_isig E 0 * along (e_sig E 0)); [ring|]. rewrite D. ring.
  Qed.
  Lemma normalised_is : normalised_rate E [rhs] 0 = - along eps.
  Proof.
    unfold normalised_rate, deviation_rate. rewrite error_is, variance_is, sig_along, (st_eps _ _ _ HS), along_mul, isig_along, <- (st_sig _ _ _ HS).
    pose proof (st_isig _ _ _ HS 0) as I. set (s := e_sig E 0) in *. set (is := e_isig E 0) in *. set (L := along s) in *.
    assert (H : (cq (Q2Qc (1 # 2)) : A) + cq (Q2Qc (1 # 2)) = 1) by apply qq_half2.
    transitivity (- (is * along err) + gr * is * err + (cq (Q2Qc (1 # 2)) + cq (Q2Qc (1 # 2))) * (s * is) * (is * is * L) * err
                  - (cq (Q2Qc (1 # 2)) + cq (Q2Qc (1 # 2))) * (s * is) * (s * is) * gr * is * err); [ring|].
    rewrite H, I. ring.
  Qed.
  Lemma metric_value a b : (a < d)%nat -> (b < d)%nat -> g a b = EE (dd (coord a) eps * dd (coord b) eps).
  Proof.
    intros Ha Hb. unfold tensor_matrix. destruct (Nat.ltb_spec b a).
    - rewrite (st_metric _ _ _ HS) by lia. f_equal. ring.
    - apply (st_metric _ _ _ HS); lia.
  Qed.
  Lemma shear_det a k : det (shear a k).
  Proof. apply det_dd, wind_det. Qed.
  Lemma metric_is a b : (a < d)%nat -> (b < d)%nat ->
    metric_rate E coords [rhs] 0 a b = - along (g a b) - over (fun k => shear a k * g k b + shear b k * g a k).
  Proof.
    intros Ha Hb. unfold metric_rate. rewrite normalised_is, !dd_opp, !along_dd, (metric_value a b Ha Hb).
    replace (over (fun k => shear a k * g k b + shear b k * g a k))
      with (EE (over (fun k => shear a k * dd (coord k) eps) * dd (coord b) eps + dd (coord a) eps * over (fun k => shear b k * dd (coord k) eps))).
    - rewrite <- along_EE, <- EE_opp, <- EE_sub. f_equal. rewrite along_mul. ring.
    - rewrite over_r, over_l, <- over_add, over_EE. apply over_ext. intros k Hk. rewrite (metric_value k b Hk Hb), (metric_value a k Ha Hk).
      rewrite EE_add. f_equal; rewrite <- EE_det_l by apply shear_det; f_equal; ring.
  Qed.
  (** tensors proportional to the inverse of the metric *)
  Lemma tensor_value f q r : (q * r == -1)%Q -> mat_eq d (mat_mul d (tensor_matrix E f 0) g) (scalar_matrix q) ->
    forall a b, (a < d)%nat -> (b < d)%nat ->
    tensor_rate E coords [rhs] f r 0 a b
    = - along (tensor_matrix E f 0 a b)
      + over (fun k => tensor_matrix E f 0 a k * shear k b + tensor_matrix E f 0 k b * shear k a).
  Proof.
    intros Hqr Hx a b Ha Hb. unfold tensor_rate. set (x := tensor_matrix E f 0) in *. set (cr := cq (Q2Qc r)).
    pose proof (mul_transpose E f FMet 0 d q Hx) as Inv. destruct Inv as [_ Hy]. fold x in Hy.
    assert (QR : cq (Q2Qc q) * cr = - (1)) by (unfold cr; rewrite <- qq_mul, (qq_eq _ _ Hqr), qq_m1; reflexivity).
    (* the derivative of x *)
    assert (D : forall c, dd c (x a b) = cr * mat_mul d x (mat_mul d (fun u v => dd c (g u v)) x) a b).
    { intros c. exact (inverse_derivative d q r x g c Hqr (conj Hx Hy) a b Ha Hb). }
    assert (Al : along (x a b) = cr * mat_mul d x (mat_mul d (fun u v => along (g u v)) x) a b).
    { unfold PKFLinearSpec.along at 1. transitivity (over (fun k => wind k * (cr * mat_mul d x (mat_mul d (fun u v => dd (coord k) (g u v)) x) a b))).
      - apply over_ext. intros k _. rewrite D. reflexivity.
      - unfold mat_mul. change (asum (map ?f (seq 0 d))) with (over f).
        transitivity (over (fun k => over (fun u => over (fun v => cr * (x a u * (wind k * dd (coord k) (g u v) * x v b)))))).
        + apply over_ext. intros k _. rewrite !over_l. apply over_ext. intros u _. change (asum (map ?f (seq 0 d))) with (over f). rewrite !over_l. apply over_ext. intros v _. ring.
        + rewrite over_swap, over_l. apply over_ext. intros u _. rewrite over_swap. change (asum (map ?f (seq 0 d))) with (over f). rewrite !over_l.
          apply over_ext. intros v _. unfold PKFLinearSpec.along. rewrite over_r, !over_l. reflexivity. }
    assert (Sp : mat_mul d x (mat_mul d (metric_rate E coords [rhs] 0) x) a b
        = - mat_mul d x (mat_mul d (fun u v => along (g u v)) x) a b
          - over (fun k => over (fun u => x a u * shear u k * mat_mul d g x k b)) - over (fun k => over (fun v => mat_mul d x g a k * (shear v k * x v b)))).
    { unfold mat_mul. change (asum (map ?f (seq 0 d))) with (over f).
      transitivity (over (fun u => over (fun v => x a u * (- along (g u v) * x v b) + (- (1)) * over (fun k => x a u * shear u k * (g k v * x v b)) + (- (1)) * over (fun k => x a u * g u k * (shear v k * x v b))))).
      - apply over_ext. intros u Hu. change (asum (map ?f (seq 0 d))) with (over f). rewrite over_l. apply over_ext. intros v Hv. rewrite (metric_is u v Hu Hv).
        rewrite over_add.
        transitivity (x a u * (- along (g u v) * x v b) - (x a u * over (fun k => shear u k * g k v) * x v b) - (x a u * over (fun k => shear v k * g u k) * x v b)); [ring|].
        rewrite !(over_l (x a u)), !(over_r (x v b)).
        rewrite (over_ext (fun k => x a u * (shear u k * g k v) * x v b) (fun k => x a u * shear u k * (g k v * x v b))) by (intros; ring).
        rewrite (over_ext (fun k => x a u * (shear v k * g u k) * x v b) (fun k => x a u * g u k * (shear v k * x v b))) by (intros; ring). ring.
      - transitivity (over (fun u => (- (1)) * (x a u * over (fun v => along (g u v) * x v b)) + (- (1)) * over (fun k => x a u * shear u k * over (fun v => g k v * x v b))
             + (- (1)) * over (fun v => over (fun k => x a u * g u k * (shear v k * x v b))))).
        + apply over_ext. intros u Hu. rewrite !over_add. f_equal; [f_equal|].
          * rewrite !over_l. apply over_ext. intros v _. ring.
          * rewrite <- over_l, over_swap. f_equal. apply over_ext. intros k _. rewrite over_l. reflexivity.
          * rewrite <- over_l. reflexivity.
        + rewrite !over_add, <- !over_l.
          rewrite (over_swap (fun u k => x a u * shear u k * over (fun v => g k v * x v b))).
          rewrite (over_swap (fun u v => over (fun k => x a u * g u k * (shear v k * x v b)))).
          rewrite (over_ext (fun v => over (fun u => over (fun k => x a u * g u k * (shear v k * x v b)))) (fun v => over (fun k => over (fun u => x a u * g u k) * (shear v k * x v b)))).
          2:{ intros v _. rewrite over_swap. apply over_ext. intros k _. rewrite over_r. reflexivity. }
          rewrite (over_swap (fun v k => over (fun u => x a u * g u k) * (shear v k * x v b))). unfold PKFLinearSpec.over. ring. }
    rewrite Sp.
    assert (S1 : over (fun k => over (fun u => x a u * shear u k * mat_mul d g x k b)) = cq (Q2Qc q) * over (fun u => x a u * shear u b)).
    { transitivity (over (fun k => over (fun u => x a u * shear u k) * scalar_matrix q k b)).
      - apply over_ext. intros k Hk. rewrite over_r. apply over_ext. intros u _. rewrite (Hy k b Hk Hb). reflexivity.
      - exact (asum_delta_r d b (fun k => over (fun u => x a u * shear u k)) q Hb). }
    assert (S2 : over (fun k => over (fun v => mat_mul d x g a k * (shear v k * x v b))) = cq (Q2Qc q) * over (fun v => x v b * shear v a)).
    { transitivity (over (fun k => scalar_matrix q a k * over (fun v => shear v k * x v b))).
      - apply over_ext. intros k Hk. rewrite over_l. apply over_ext. intros v _. rewrite (Hx a k Ha Hk). reflexivity.
      - transitivity (cq (Q2Qc q) * over (fun v => shear v a * x v b)); [exact (asum_delta d a (fun k => over (fun v => shear v k * x v b)) q Ha)|].
        f_equal. apply over_ext. intros; ring. }
    rewrite S1, S2, Al, over_add. set (X := mat_mul d x _ a b). set (Y := over (fun u => x a u * shear u b)). set (Z := over (fun v => x v b * shear v a)).
    transitivity (- (cr * X) - (cq (Q2Qc q) * cr) * Y - (cq (Q2Qc q) * cr) * Z); [ring|]. rewrite QR. ring.
  Qed.
End Rates.
