(** in_metric, in_diffusion, in_aspect: every equation holds. *)
From Coq Require Import List Arith Ring ZArith QArith Qcanon Bool String Permutation Lia.
From Verif Require Import PyBase PyBaseFacts PartialOrderModel TreeModel Reynolds PKFModel PKFSpec PKFAlg PKFAtoms PKFTaylor
  PKFClosure PKFProofs.
Import ListNotations.
Close Scope Q_scope.
Close Scope Qc_scope.
Close Scope Z_scope.
Open Scope nat_scope.
Open Scope string_scope.
Open Scope list_scope.

(** *** matrices *)
Section Mat.
  Context {A : RAlg}.
  Add Ring A_ring7 : (c_th A).
  Open Scope ra_scope.
  Notation mat := (matrix (A := A)).

  Lemma asum_cons (a : A) l : asum (a :: l) = a + asum l.
  Proof. reflexivity. Qed.
  Lemma asum_nil : asum (@nil A) = 0.
  Proof. reflexivity. Qed.
  Lemma asum_app (l l' : list A) : asum (l ++ l') = asum l + asum l'.
  Proof. induction l as [|x l IH]; cbn [app]; [rewrite asum_nil; ring|]. rewrite !asum_cons, IH. ring. Qed.
  Lemma asum_ext {B} (f g : B -> A) l : (forall b, In b l -> f b = g b) -> asum (map f l) = asum (map g l).
  Proof.
    induction l as [|b l IH]; intros H; [reflexivity|]. cbn [map asum fold_right].
    change (fold_right cadd 0 (map ?h l)) with (asum (map h l)). rewrite (H b), IH; [reflexivity|intros; apply H; right; assumption|left; reflexivity].
  Qed.
  Lemma asum_add {B} (f g : B -> A) l : asum (map (fun b => f b + g b) l) = asum (map f l) + asum (map g l).
  Proof. induction l as [|b l IH]; cbn [map]; [rewrite ?asum_nil; ring|]. rewrite !asum_cons, IH. ring. Qed.
  Lemma asum_mul_l {B} (c : A) (f : B -> A) l : c * asum (map f l) = asum (map (fun b => c * f b) l).
  Proof. induction l as [|b l IH]; cbn [map]; [rewrite ?asum_nil; ring|]. rewrite !asum_cons, <- IH. ring. Qed.
  Lemma asum_mul_r {B} (c : A) (f : B -> A) l : asum (map f l) * c = asum (map (fun b => f b * c) l).
  Proof. induction l as [|b l IH]; cbn [map]; [rewrite ?asum_nil; ring|]. rewrite !asum_cons, <- IH. ring. Qed.
  Lemma asum_zero {B} (f : B -> A) l : (forall b, In b l -> f b = 0) -> asum (map f l) = 0.
  Proof.
    induction l as [|b l IH]; intros H; [reflexivity|]. cbn [map]. rewrite asum_cons, (H b), IH; [ring|intros; apply H; right; assumption|left; reflexivity].
  Qed.
  Lemma asum_swap {B D} (f : B -> D -> A) l l' :
    asum (map (fun b => asum (map (f b) l')) l) = asum (map (fun d => asum (map (fun b => f b d) l)) l').
  Proof.
    induction l as [|b l IH]; cbn [map].
    - symmetry. apply asum_zero. reflexivity.
    - rewrite asum_cons, IH, <- asum_add. apply asum_ext. intros d _. rewrite asum_cons. reflexivity.
  Qed.
  Lemma dd_asum {B} c (f : B -> A) l : dd c (asum (map f l)) = asum (map (fun b => dd c (f b)) l).
  Proof. induction l as [|b l IH]; cbn [map]; [apply dd_0|]. rewrite !asum_cons, dd_add, IH. reflexivity. Qed.
  Lemma asum_flat {B D} (f : B -> D -> A) l l' :
    asum (flat_map (fun b => map (f b) l') l) = asum (map (fun b => asum (map (f b) l')) l).
  Proof. induction l as [|b l IH]; cbn [flat_map map]; [reflexivity|]. rewrite asum_app, asum_cons, IH. reflexivity. Qed.
  Lemma asum_delta d a (f : nat -> A) q : (a < d)%nat ->
    asum (map (fun k => scalar_matrix q a k * f k) (seq 0 d)) = cq (Q2Qc q) * f a.
  Proof.
    intros Ha. replace (seq 0 d) with (seq 0 a ++ a :: seq (S a) (d - S a)).
    2:{ replace d with (a + S (d - S a))%nat at 2 by lia. rewrite seq_app. reflexivity. }
    rewrite map_app, asum_app. cbn [map]. rewrite asum_cons, !asum_zero.
    - unfold scalar_matrix. rewrite Nat.eqb_refl. ring.
    - intros b Hb. apply in_seq in Hb. unfold scalar_matrix. destruct (Nat.eqb_spec a b); [lia|ring].
    - intros b Hb. apply in_seq in Hb. unfold scalar_matrix. destruct (Nat.eqb_spec a b); [lia|ring].
  Qed.
  Lemma scalar_sym q a b : scalar_matrix q a b = scalar_matrix q b a :> A.
  Proof. unfold scalar_matrix. rewrite (Nat.eqb_sym b a). reflexivity. Qed.
  Lemma asum_delta_r d b (f : nat -> A) q : (b < d)%nat ->
    asum (map (fun k => f k * scalar_matrix q k b) (seq 0 d)) = cq (Q2Qc q) * f b.
  Proof.
    intros Hb. rewrite <- (asum_delta d b f q Hb). apply asum_ext. intros k _. rewrite (scalar_sym q k b). ring.
  Qed.
  Lemma mat_assoc d (x y z : mat) a b : mat_mul d (mat_mul d x y) z a b = mat_mul d x (mat_mul d y z) a b.
  Proof.
    unfold mat_mul.
    transitivity (asum (map (fun k => asum (map (fun l => x a l * y l k * z k b) (seq 0 d))) (seq 0 d))).
    - apply asum_ext. intros k _. apply asum_mul_r.
    - rewrite asum_swap. apply asum_ext. intros l _. rewrite asum_mul_l. apply asum_ext. intros k _. ring.
  Qed.
  Lemma mat_mul_ext d (x x' y y' : mat) a b : (a < d)%nat -> (b < d)%nat -> mat_eq d x x' -> mat_eq d y y' ->
    mat_mul d x y a b = mat_mul d x' y' a b.
  Proof.
    intros Ha Hb Hx Hy. apply asum_ext. intros k Hk. apply in_seq in Hk. rewrite Hx, Hy by lia. reflexivity.
  Qed.

  (** D x = - q^-1 x (D y) x when x y = q I *)
  Lemma inverse_derivative d q r (x y : mat) c : (q * r == -1)%Q -> inverse_upto d q x y ->
    mat_eq d (fun a b => dd c (x a b)) (fun a b => cq (Q2Qc r) * mat_mul d x (mat_mul d (fun a b => dd c (y a b)) x) a b).
  Proof.
    intros Hqr [Hxy Hyx] a b Ha Hb.
    assert (D : forall u v, (u < d)%nat -> (v < d)%nat ->
              mat_mul d (fun a b => dd c (x a b)) y u v + mat_mul d x (fun a b => dd c (y a b)) u v = 0).
    { intros u v Hu Hv. assert (H : dd c (mat_mul d x y u v) = 0).
      { rewrite (Hxy u v Hu Hv). unfold scalar_matrix. destruct (Nat.eqb u v); [apply dd_cq|apply dd_0]. }
      rewrite <- H. unfold mat_mul. rewrite dd_asum, <- asum_add. apply asum_ext. intros k _. rewrite dd_mul. reflexivity. }
    rewrite <- mat_assoc.
    assert (S1 : mat_mul d (mat_mul d x (fun a b => dd c (y a b))) x a b
                 = - mat_mul d (mat_mul d (fun a b => dd c (x a b)) y) x a b).
    { assert (Z : mat_mul d (mat_mul d (fun a b => dd c (x a b)) y) x a b + mat_mul d (mat_mul d x (fun a b => dd c (y a b))) x a b = 0).
      { unfold mat_mul at 1 3. rewrite <- asum_add. apply asum_zero. intros k Hk. apply in_seq in Hk.
        transitivity ((mat_mul d (fun a b => dd c (x a b)) y a k + mat_mul d x (fun a b => dd c (y a b)) a k) * x k b); [ring|].
        rewrite D by lia. ring. }
      transitivity (mat_mul d (mat_mul d (fun a b => dd c (x a b)) y) x a b + mat_mul d (mat_mul d x (fun a b => dd c (y a b))) x a b
                    - mat_mul d (mat_mul d (fun a b => dd c (x a b)) y) x a b); [ring|]. rewrite Z. ring. }
    rewrite S1, mat_assoc.
    rewrite (mat_mul_ext d (fun a b => dd c (x a b)) (fun a b => dd c (x a b)) (mat_mul d y x) (scalar_matrix q) a b Ha Hb)
      by (exact Hyx || (intros ? ? ? ?; reflexivity)).
    unfold mat_mul. rewrite asum_delta_r by exact Hb.
    transitivity (- (cq (Q2Qc q) * cq (Q2Qc r)) * dd c (x a b)); [|ring].
    rewrite <- qq_mul, (qq_eq _ _ Hqr), qq_m1. ring.
  Qed.

  Lemma tensor_sym (E : env A) f i a b : tensor_matrix E f i a b = tensor_matrix E f i b a.
  Proof.
    unfold tensor_matrix. destruct (Nat.ltb_spec b a), (Nat.ltb_spec a b); try reflexivity; [lia|].
    replace b with a by lia. reflexivity.
  Qed.
  Lemma mul_transpose (E : env A) f g i d q :
    mat_eq d (mat_mul d (tensor_matrix E f i) (tensor_matrix E g i)) (scalar_matrix q) ->
    inverse_upto d q (tensor_matrix E f i) (tensor_matrix E g i).
  Proof.
    intros H. split; [exact H|]. intros a b Ha Hb. rewrite scalar_sym, <- (H b a Hb Ha). unfold mat_mul. apply asum_ext.
    intros k _. rewrite (tensor_sym E g i a k), (tensor_sym E f i k b). ring.
  Qed.
End Mat.

Section Final.
  Context {A : RAlg} (E : env A).
  Add Ring A_ring8 : (c_th A).
  Open Scope ra_scope.
  Variables (enum : list mi -> list mi) (enumD : tdict -> tdict) (enumC : edict -> edict)
    (enumF : list (fn * poly) -> list (fn * poly)) (enumU : list fn -> list fn).
  Variables (coords : list string) (eqs : list poly).
  Hypothesis Henum : forall l, Permutation (enum l) l.
  Hypothesis HenumD : forall l, Permutation (enumD l) l.
  Hypothesis HenumC : forall l, Permutation (enumC l) l.
  Hypothesis HenumF : forall l, Permutation (enumF l) l.
  Hypothesis Hcoords : NoDup coords.
  Hypothesis Hne : coords <> [].
  Hypothesis HU : user_system eqs.
  Hypothesis HS : statistics coords (List.length eqs) E.
  Hypothesis HD : error_dynamics eqs E.
  Hypothesis HM : mean_dynamics eqs E.
  Variable closure : edict.
  Hypothesis HC : closure_holds E closure.

  Let HE : algebraic E := st_algebraic E coords _ HS.
  Let HA : averaged E := st_averaged E coords _ HS.

  Lemma hold_map g s : (forall p, pv E (g p) = pv E p) -> all_hold E s -> all_hold E (map (on_eq g) s).
  Proof.
    intros Hg Hs q Hq. apply in_map_iff in Hq. destruct Hq as (q' & <- & Hin). unfold holds, on_eq. cbn [fst snd].
    rewrite !Hg. exact (Hs q' Hin).
  Qed.
  Lemma hold_app s s' : all_hold E s -> all_hold E s' -> all_hold E (s ++ s').
  Proof. intros H1 H2 q Hq. apply in_app_iff in Hq. destruct Hq; auto. Qed.
  Lemma apply_closure_hold s : all_hold E s -> all_hold E (apply_closure enumC closure s).
  Proof.
    intros Hs. unfold apply_closure. destruct closure as [|kv r] eqn:Hc; [exact Hs|]. rewrite <- Hc in *.
    apply hold_map; [|exact Hs]. intros p. apply (sub_exps_sound E HE). apply (closure_enum E enumC HenumC), HC.
  Qed.
  Lemma clean_hold s : all_hold E s -> all_hold E (clean enumF eqs s).
  Proof.
    apply hold_map. intros p. apply (sub_fns_sound E HE HA). intros f v Hin. apply (Permutation_in _ (HenumF _)) in Hin.
    apply in_map_iff in Hin. destruct Hin as (i & H & _). apply pair_inj in H. destruct H as [<- <-].
    rewrite pfn_sound by exact HE. symmetry. apply (st_mean _ _ _ HS).
  Qed.
  Lemma expectation_hold s : expectation_system enum enumC enumF coords eqs = Ok s -> all_hold E s.
  Proof.
    intros H [l r] Hin. apply In_nth_error in Hin. destruct Hin as (i & Hi).
    destruct (expectation_values E enum enumC enumF coords eqs HenumC HenumF HU HS s i l r H Hi) as (Hl & H1 & H2).
    unfold holds. cbn [fst snd]. rewrite H1, H2. apply (HM i). apply nth_error_nth_eqs, Hl.
  Qed.

  Lemma in_metric_hold s : in_metric enum enumD enumC enumF enumU coords eqs closure = Ok s -> all_hold E s.
  Proof.
    unfold in_metric. intros H. ok H e He. ok H v Hv. ok H c Hc. ok H m Hm. apply Ok_inj in H. subst s.
    repeat apply hold_app; apply clean_hold, apply_closure_hold.
    - exact (expectation_hold e He).
    - exact (variance_hold E enum enumD enumC enumF enumU coords eqs Henum HenumD HenumC HenumF Hcoords Hne HU HS HD v Hv).
    - exact (covariance_hold E enum enumD enumC enumF enumU coords eqs Henum HenumD HenumC HenumF Hcoords Hne HU HS HD c Hc).
    - exact (metric_hold E enum enumD enumC enumF enumU coords eqs Henum HenumD HenumC HenumF Hcoords Hne HU HS HD m Hm).
  Qed.

  Section Tensor.
    Variables (tensor inv : nat -> nat -> nat -> fn) (scale factor : Q).
    Hypothesis HT : tensor_is coords (List.length eqs) E tensor inv scale.
    Hypothesis Hsf : (scale * factor == -1)%Q.

    Lemma metric_matrix i a b : e_fn E (metric i a b) = tensor_matrix E FMet i a b.
    Proof. unfold metric, tensor_matrix. destruct (Nat.ltb b a); reflexivity. Qed.
    Lemma sym_matrix f i a b : e_fn E (sym f i a b) = tensor_matrix E f i a b.
    Proof. reflexivity. Qed.
    Lemma metric_is_inverse i a b : (i < List.length eqs)%nat -> (a < dim coords)%nat -> (b < dim coords)%nat ->
      tensor_matrix E FMet i a b = cq (Q2Qc scale) * tensor_matrix E inv i a b.
    Proof.
      unfold dim. intros Hi Ha Hb. destruct (HT i Hi) as [H1 H2].
      destruct (mul_transpose E tensor FMet i _ _ H1) as [_ H1'].
      transitivity (mat_mul (List.length coords) (mat_mul (List.length coords) (tensor_matrix E FMet i) (tensor_matrix E tensor i)) (tensor_matrix E inv i) a b).
      - rewrite mat_assoc. symmetry.
        rewrite (mat_mul_ext _ (tensor_matrix E FMet i) (tensor_matrix E FMet i) _ (scalar_matrix 1) a b Ha Hb)
          by (exact H2 || (intros ? ? ? ?; reflexivity)).
        unfold mat_mul. rewrite asum_delta_r, qq_1 by exact Hb. ring.
      - rewrite (mat_mul_ext _ _ (scalar_matrix scale) (tensor_matrix E inv i) (tensor_matrix E inv i) a b Ha Hb)
          by (exact H1' || (intros ? ? ? ?; reflexivity)).
        exact (asum_delta _ a (fun k => tensor_matrix E inv i k b) scale Ha).
    Qed.
    Lemma to_tensor_sound p : pv E (sub_fns (enumF (metric_to_tensor coords eqs inv scale)) p) = pv E p.
    Proof.
      apply (sub_fns_sound E HE HA). intros f v Hin. apply (Permutation_in _ (HenumF _)) in Hin.
      unfold metric_to_tensor in Hin. apply in_flat_map in Hin. destruct Hin as (i & Hi & Hin). apply in_map_iff in Hin.
      destruct Hin as ([a b] & H & Hu). apply pair_inj in H. destruct H as [<- <-]. cbn [fst snd].
      apply fields_in in Hi. apply upper_in in Hu. destruct Hu as [Hab Hb].
      rewrite metric_matrix, metric_is_inverse by (exact Hi || lia). rewrite pscale_sound, pfn_sound by exact HE. f_equal.
      unfold tensor_matrix. destruct (Nat.ltb_spec b a); [lia|reflexivity].
    Qed.
    Lemma pv_psum l : pv E (psum l) = asum (map (pv E) l).
    Proof. rewrite psum_sound by exact HE. induction l as [|p l IH]; [reflexivity|]. cbn [fold_right map]. rewrite asum_cons, IH. reflexivity. Qed.
    Lemma tensor_trend_value i a b :
      pv E (tensor_trend coords tensor factor i a b)
      = cq (Q2Qc factor) * mat_mul (dim coords) (tensor_matrix E tensor i)
          (mat_mul (dim coords) (fun a b => dd "t" (tensor_matrix E FMet i a b)) (tensor_matrix E tensor i)) a b.
    Proof.
      unfold tensor_trend. rewrite pscale_sound, pv_psum by exact HE. f_equal.
      set (S := seq 0 (dim coords)). transitivity (asum (flat_map (fun c => map (fun d =>
          tensor_matrix E tensor i a c * (dd "t" (tensor_matrix E FMet i c d) * tensor_matrix E tensor i d b)) S) S)).
      - f_equal. induction S as [|c S' IH] at 2 4; [reflexivity|]. cbn [flat_map]. rewrite map_app, IH. f_equal. rewrite map_map.
        apply map_ext. intros d. rewrite !pmul_sound, !pfn_sound, pjet_sound by exact HE. cbn [dds]. rewrite metric_matrix, !sym_matrix. reflexivity.
      - rewrite asum_flat. apply asum_ext. intros c _. unfold mat_mul. rewrite asum_mul_l. reflexivity.
    Qed.
    Lemma tensor_equation_hold m tr iab : metric_system enum enumD enumC enumF enumU coords eqs = Ok m ->
      trend_dict (apply_closure enumC closure m) = Ok tr -> In iab (metric_indices coords eqs) ->
      holds E (tensor_equation enumF coords eqs tensor inv scale factor tr iab).
    Proof.
      intros Hm Htr Hi. destruct iab as [i [a b]]. unfold tensor_equation, holds. cbn [fst snd].
      rewrite to_tensor_sound, (sub_trends_sound E HE HA).
      2:{ apply (trends_sound E enumF HenumF (apply_closure enumC closure m)); [|exact Htr]. apply apply_closure_hold.
          exact (metric_hold E enum enumD enumC enumF enumU coords eqs Henum HenumD HenumC HenumF Hcoords Hne HU HS HD m Hm). }
      rewrite pjet_sound by exact HE. cbn [dds]. rewrite sym_matrix, tensor_trend_value.
      unfold metric_indices in Hi. apply in_flat_map in Hi. destruct Hi as (i' & Hf & Hi). apply in_map_iff in Hi.
      destruct Hi as ([a' b'] & He & Hu). apply pair_inj in He. destruct He as [<- He]. apply pair_inj in He. destruct He as [<- <-].
      apply upper_in in Hu. apply fields_in in Hf.
      apply (inverse_derivative (dim coords) scale factor (tensor_matrix E tensor i') (tensor_matrix E FMet i') "t" Hsf); [|lia|lia].
      apply mul_transpose. exact (proj1 (HT i' Hf)).
    Qed.
    Lemma in_tensor_hold cov s :
      in_tensor enum enumD enumC enumF enumU coords eqs closure tensor inv scale factor cov = Ok s -> all_hold E s.
    Proof.
      unfold in_tensor. intros H. ok H m Hm. ok H tr Htr. ok H e He. ok H v Hv. ok H c Hc. apply Ok_inj in H. subst s.
      apply clean_hold, hold_app.
      - apply hold_map; [apply to_tensor_sound|]. repeat apply hold_app; apply apply_closure_hold.
        + exact (expectation_hold e He).
        + exact (variance_hold E enum enumD enumC enumF enumU coords eqs Henum HenumD HenumC HenumF Hcoords Hne HU HS HD v Hv).
        + destruct cov; [|apply Ok_inj in Hc; subst c; intros q []].
          exact (covariance_hold E enum enumD enumC enumF enumU coords eqs Henum HenumD HenumC HenumF Hcoords Hne HU HS HD c Hc).
      - intros q Hq. apply in_map_iff in Hq. destruct Hq as (iab & <- & Hi). exact (tensor_equation_hold m tr iab Hm Htr Hi).
    Qed.
  End Tensor.
End Final.
