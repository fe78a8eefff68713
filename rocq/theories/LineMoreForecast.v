(** Forecasts with the generated models of the 1D advection, of Burgers' equation and of the
    Kuramoto-Sivashinsky equation: what the first computes, what the others conserve. *)
From Coq Require Import List Arith ZArith Bool Reals String Lia Lra Permutation FunctionalExtensionality Psatz.
From Verif Require Import PyBase PyBaseFacts Scalars FieldFacts SymModel FDExprModel FDReal GridModel ForecastModel ForecastSpec ForecastProofs
  SchemesModel SchemesSpec SchemesProofs LineModel LineSpec LineProofs LineConv LineMoreModel LineMoreSpec LineMoreProofs.
Import ListNotations.
Open Scope R_scope.

(** ** a trend that does not depend on the state *)
Lemma steady_step s (trend : @trendT RF (list nat)) (rate : nat -> R) n t (u : list nat -> R) (dt : R) :
  (forall t u, exists r, trend t u = Ok r /\ forall j, (j < n)%nat -> at0 r j = rate j) ->
  exists v, @onestep_fun RF (list nat) s trend t u dt = Ok v /\ forall j, (j < n)%nat -> at0 v j = at0 u j + dt * rate j.
Proof.
  intros H. destruct s; cbn [onestep_fun]; [unfold euler|unfold rk2|unfold rk4].
  - destruct (H t u) as (r & -> & E). cbn [bind]. eexists. split; [reflexivity|]. intros j Hj. rewrite <- E by auto. reflexivity.
  - destruct (H t u) as (r & -> & E). cbn [bind].
    match goal with |- context [trend ?a ?b] => destruct (H a b) as (r2 & -> & E2) end. cbn [bind].
    eexists. split; [reflexivity|]. intros j Hj. rewrite <- E2 by auto. reflexivity.
  - destruct (H t u) as (r & -> & E). cbn [bind].
    match goal with |- context [trend ?a ?b] => destruct (H a b) as (r2 & -> & E2) end. cbn [bind].
    match goal with |- context [trend ?a ?b] => destruct (H a b) as (r3 & -> & E3) end. cbn [bind].
    match goal with |- context [trend ?a ?b] => destruct (H a b) as (r4 & -> & E4) end. cbn [bind].
    eexists. split; [reflexivity|]. intros j Hj. unfold vadd, vscale, fnat, at0. cbn.
    change (r [O; j]) with (at0 r j). change (r2 [O; j]) with (at0 r2 j). change (r3 [O; j]) with (at0 r3 j). change (r4 [O; j]) with (at0 r4 j).
    rewrite E, E2, E3, E4 by auto. match goal with |- ?a = ?b => change (@eq R a b) end. field.
Qed.

Theorem wind_forecast (L : R) (wind : list nat -> R) n enum x ord rpow g caches attr (t0 : R) w (state : list nat -> R) sv s : 0 < L ->
  wind_class L wind n enum ord g caches attr -> nth_error w 0 = Some t0 -> sv <> SOther ->
  exists traj, forecast Req_EM_T Rminus (@onestep_fun RF (list nat) s) (generated_trend enum x ord rpow ["x"%string] g caches attr line_advection) w state sv = Ok traj /\
    forall t, In t w -> is_saved w sv t -> exists v, dget Req_EM_T t traj = Some v /\
      forall j, (j < n)%nat -> v [O; j] = state [O; j] + (t - t0) * (- wind [j] * d1 n (mesh L n) (fun j => wind [j]) j).
Proof.
  intros PL WC W0 Hs.
  apply (forecast_keeps (@onestep_fun RF (list nat) s) (generated_trend enum x ord rpow ["x"%string] g caches attr line_advection)
    (fun (t : R) (v : list nat -> R) => forall j, (j < n)%nat -> v [O; j] = state [O; j] + (t - t0) * (- wind [j] * d1 n (mesh L n) (fun j => wind [j]) j)) w state sv t0 Hs W0).
  - intros j Hj. ring.
  - intros k t t' u _ _ Hi.
    destruct (steady_step s _ _ n t u (t' - t) (wind_trend L wind n enum x ord rpow g caches attr WC PL)) as (v & E & Hv).
    exists v. split; [exact E|]. intros j Hj. change (v [O; j]) with (at0 v j). rewrite Hv by auto. unfold at0. rewrite Hi by auto. ring.
Qed.

(** ** sums over a period *)
Definition sm (n : nat) (f : nat -> R) : R := fold_right Rplus 0 (map f (seq 0 n)).
Lemma fold_perm (l l' : list R) : Permutation l l' -> fold_right Rplus 0 l = fold_right Rplus 0 l'.
Proof. induction 1; cbn; lra. Qed.
Lemma sm_ext n f g : (forall j, (j < n)%nat -> f j = g j) -> sm n f = sm n g.
Proof. intros H. unfold sm. f_equal. apply map_ext_in. intros j Hj. apply in_seq in Hj. apply H. lia. Qed.
Lemma sm_add n f g : sm n (fun j => f j + g j) = sm n f + sm n g.
Proof. unfold sm. induction (seq 0 n) as [|j l IH]; cbn; lra. Qed.
Lemma sm_scale n c f : sm n (fun j => c * f j) = c * sm n f.
Proof. unfold sm. induction (seq 0 n) as [|j l IH]; cbn; lra. Qed.
Lemma sm_le n f g : (forall j, (j < n)%nat -> f j <= g j) -> sm n f <= sm n g.
Proof.
  intros H. unfold sm. assert (K : forall j, In j (seq 0 n) -> f j <= g j) by (intros j Hj; apply in_seq in Hj; apply H; lia).
  induction (seq 0 n) as [|j l IH]; cbn; [lra|]. pose proof (K j (or_introl eq_refl)). assert (forall j, In j l -> f j <= g j) by (intros; apply K; right; auto).
  specialize (IH H1). lra.
Qed.
Lemma shift_shift n a b j : (j < n)%nat -> shift n a (shift n b j) = shift n (a + b) j.
Proof.
  intros H. unfold shift. pose proof (Z.mod_pos_bound (Z.of_nat j + b) (Z.of_nat n) ltac:(lia)). f_equal.
  rewrite Z2Nat.id by lia. rewrite Zplus_mod_idemp_l. f_equal. lia.
Qed.
Lemma nodup_map_in {A B} (f : A -> B) l : NoDup l -> (forall a b, In a l -> In b l -> f a = f b -> a = b) -> NoDup (map f l).
Proof.
  induction 1 as [|a l N D IH]; intros H; cbn; constructor.
  - intros I. apply in_map_iff in I. destruct I as (b & E & Hb). apply N. rewrite (H a b); cbn; auto.
  - apply IH. intros; apply H; cbn; auto.
Qed.
Lemma shift_perm n s : Permutation (map (shift n s) (seq 0 n)) (seq 0 n).
Proof.
  apply NoDup_Permutation_bis.
  - apply nodup_map_in; [apply seq_NoDup|].
    intros i j Hi Hj E. apply in_seq in Hi, Hj. rewrite <- (shift_0 n i), <- (shift_0 n j) by lia.
    replace 0%Z with (- s + s)%Z by lia. rewrite <- !shift_shift by lia. now rewrite E.
  - rewrite map_length. auto.
  - intros i Hi. apply in_map_iff in Hi. destruct Hi as (j & <- & Hj). apply in_seq in Hj. apply in_seq.
    pose proof (shift_lt n s j ltac:(lia)). lia.
Qed.
Lemma sm_shift n s f : sm n (fun j => f (shift n s j)) = sm n f.
Proof. unfold sm. rewrite <- (map_map (shift n s) f). apply fold_perm, Permutation_map, shift_perm. Qed.

Lemma sum_d1 n h (U : nat -> R) : sm n (fun j => U j * d1 n h U j) = 0.
Proof.
  unfold d1. rewrite (sm_ext n _ (fun j => / (2 * h) * (U j * U (shift n 1 j)) + - / (2 * h) * (U (shift n (-1) j) * U j))).
  2:{ intros j Hj. unfold Rdiv. ring. }
  rewrite sm_add, !sm_scale.
  rewrite <- (sm_shift n (-1) (fun j => U j * U (shift n 1 j))).
  rewrite (sm_ext n (fun j => U (shift n (-1) j) * U (shift n 1 (shift n (-1) j))) (fun j => U (shift n (-1) j) * U j)); [ring|].
  intros j Hj. rewrite shift_shift by auto. now rewrite shift_0 by auto.
Qed.
Lemma sum_d2 n h (U : nat -> R) : sm n (d2 n h U) = 0.
Proof.
  unfold d2. rewrite (sm_ext n _ (fun j => / h ^ 2 * U (shift n 1 j) + (/ h ^ 2 * U (shift n (-1) j) + (-2 * / h ^ 2) * U j))).
  2:{ intros j Hj. unfold Rdiv. ring. }
  rewrite !sm_add, !sm_scale, !(sm_shift n _ U). ring.
Qed.
Lemma sum_d4 n h (U : nat -> R) : sm n (d4 n h U) = 0.
Proof.
  unfold d4. rewrite (sm_ext n _ (fun j => / h ^ 4 * U (shift n 2 j) + (/ h ^ 4 * U (shift n (-2) j) + ((-4 * / h ^ 4) * U (shift n 1 j) + ((-4 * / h ^ 4) * U (shift n (-1) j) + (6 * / h ^ 4) * U j))))).
  2:{ intros j Hj. unfold Rdiv. ring. }
  rewrite !sm_add, !sm_scale, !(sm_shift n _ U). ring.
Qed.

(** ** a trend of zero sum *)
Definition zero_sum (n : nat) (trend : @trendT RF (list nat)) : Prop :=
  forall t u, exists r, trend t u = Ok r /\ sm n (at0 r) = 0.
Lemma zero_sum_step s (trend : @trendT RF (list nat)) n t (u : list nat -> R) (dt : R) : zero_sum n trend ->
  exists v, @onestep_fun RF (list nat) s trend t u dt = Ok v /\ sm n (at0 v) = sm n (at0 u).
Proof.
  intros H. destruct s; cbn [onestep_fun]; [unfold euler|unfold rk2|unfold rk4].
  - destruct (H t u) as (r & -> & E). cbn [bind]. eexists. split; [reflexivity|].
    rewrite (sm_ext n _ (fun j => at0 u j + dt * at0 r j)) by reflexivity. rewrite sm_add, sm_scale, E. ring.
  - destruct (H t u) as (r & -> & E). cbn [bind].
    match goal with |- context [trend ?a ?b] => destruct (H a b) as (r2 & -> & E2) end. cbn [bind].
    eexists. split; [reflexivity|].
    rewrite (sm_ext n _ (fun j => at0 u j + dt * at0 r2 j)) by reflexivity. rewrite sm_add, sm_scale, E2. ring.
  - destruct (H t u) as (r & -> & E). cbn [bind].
    match goal with |- context [trend ?a ?b] => destruct (H a b) as (r2 & -> & E2) end. cbn [bind].
    match goal with |- context [trend ?a ?b] => destruct (H a b) as (r3 & -> & E3) end. cbn [bind].
    match goal with |- context [trend ?a ?b] => destruct (H a b) as (r4 & -> & E4) end. cbn [bind].
    eexists. split; [reflexivity|].
    rewrite (sm_ext n _ (fun j => at0 u j + (dt / 6) * (((at0 r j + 2 * at0 r2 j) + 2 * at0 r3 j) + at0 r4 j))).
    2:{ intros j Hj. unfold vadd, vscale, fnat, at0. cbn. match goal with |- ?a = ?b => change (@eq R a b) end. field. }
    rewrite sm_add, sm_scale, !sm_add, !sm_scale, E, E2, E3, E4. ring.
Qed.
Theorem zero_sum_forecast s (trend : @trendT RF (list nat)) n w state sv : zero_sum n trend -> w <> [] -> sv <> SOther ->
  exists traj, forecast Req_EM_T Rminus (@onestep_fun RF (list nat) s) trend w state sv = Ok traj /\
    forall t, In t w -> is_saved w sv t -> exists v, dget Req_EM_T t traj = Some v /\ field_sum n v = field_sum n state.
Proof.
  intros Z Hw Hs. destruct w as [|t0 w]; [congruence|].
  apply (forecast_keeps (@onestep_fun RF (list nat) s) trend (fun _ v => field_sum n v = field_sum n state) (t0 :: w) state sv t0 Hs eq_refl).
  - reflexivity.
  - intros k t t' u _ _ Hi. destruct (zero_sum_step s trend n t u (t' - t) Z) as (v & E & Hv). exists v. split; [exact E|].
    rewrite <- Hi. exact Hv.
Qed.

Lemma burgers_zero_sum (L kappa : R) n enum x ord rpow g caches attr : 0 < L -> line_class L kappa n enum ord g caches attr ->
  zero_sum n (generated_trend enum x ord rpow ["x"%string] g caches attr burgers).
Proof.
  intros PL LC t u. destruct (burgers_trend L kappa n enum x ord rpow g caches attr LC PL t u) as (r & E & H).
  exists r. split; [exact E|].
  rewrite (sm_ext n _ (fun j => (-1) * (at0 u j * d1 n (mesh L n) (at0 u) j) + kappa * d2 n (mesh L n) (at0 u) j)).
  2:{ intros j Hj. rewrite H by auto. ring. }
  rewrite sm_add, !sm_scale, sum_d1, sum_d2. ring.
Qed.
Lemma kuramoto_zero_sum (L kappa eta : R) n enum x ord rpow g caches attr : 0 < L -> kuramoto_class L kappa eta n enum ord g caches attr ->
  zero_sum n (generated_trend enum x ord rpow ["x"%string] g caches attr kuramoto).
Proof.
  intros PL KC t u. destruct (kuramoto_trend L kappa eta n enum x ord rpow g caches attr KC PL t u) as (r & E & H).
  exists r. split; [exact E|].
  rewrite (sm_ext n _ (fun j => (-1) * (at0 u j * d1 n (mesh L n) (at0 u) j) + (- kappa * d2 n (mesh L n) (at0 u) j + - eta * d4 n (mesh L n) (at0 u) j))).
  2:{ intros j Hj. rewrite H by auto. ring. }
  rewrite !sm_add, !sm_scale, sum_d1, sum_d2, sum_d4. ring.
Qed.
