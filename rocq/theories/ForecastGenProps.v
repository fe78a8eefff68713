(** Property C98: saved_times given as a one-shot iterator. *)
From Coq Require Import List Arith Bool Lia ZArith.
From Verif Require Import PyBase ForecastModel ForecastSpec ForecastGenModel ForecastGenSpec ForecastGenProofs.
Import ListNotations.

(** forecast keeps the states of the first j times of the window: the longest beginning of the window
    that the iterator gives in this order. *)
Theorem C98_forecast : forall (T D S TR : Type) (teq : forall a b : T, {a = b} + {a <> b}) tsub (scheme : TR -> T -> S -> D -> res S) trend w u0 g traj rest j,
  gen_forecast teq tsub scheme trend w u0 g = Ok (traj, rest) -> served w g j ->
  (j = 0 /\ traj = []) \/ (0 < j /\ forecast teq tsub scheme trend (firstn j w) u0 SNone = Ok traj).
Proof. exact @gen_forecast_prefix. Qed.
Theorem C98_served : forall (T : Type) (teq : forall a b : T, {a = b} + {a <> b}) (w g : list T), exists j, served w g j /\ forall j', served w g j' -> j' = j.
Proof. intros T teq w g. exists (greedy teq w g). split; [apply greedy_served|]. intros j' H. exact (served_unique w g _ _ H (greedy_served teq w g)). Qed.
Theorem C98_predict : forall (T D S TR : Type) (teq : forall a b : T, {a = b} + {a <> b}) tsub (scheme : TR -> T -> S -> D -> res S) trend w u0 g rows rest j,
  gen_predict teq tsub scheme trend w u0 g = Ok (rows, rest) -> served w g j ->
  (j = 0 /\ rows = []) \/ (0 < j /\ predict teq tsub scheme trend (firstn j w) u0 SNone = Ok rows).
Proof. exact @gen_predict_prefix. Qed.
(** exceptions are those of the time scheme *)
Theorem C98_forecast_fails : forall (T D S TR : Type) (teq : forall a b : T, {a = b} + {a <> b}) tsub (scheme : TR -> T -> S -> D -> res S) trend w u0 g e,
  gen_forecast teq tsub scheme trend w u0 g = Err e <-> forecast teq tsub scheme trend w u0 SNone = Err e.
Proof. exact @gen_forecast_fails. Qed.
(** an iterator that gives the whole window in order is as good as a list *)
Theorem C98_forecast_all : forall (T D S TR : Type) (teq : forall a b : T, {a = b} + {a <> b}) tsub (scheme : TR -> T -> S -> D -> res S) trend w u0 g traj,
  subsequence w g -> forecast teq tsub scheme trend w u0 SNone = Ok traj -> exists rest, gen_forecast teq tsub scheme trend w u0 g = Ok (traj, rest).
Proof. exact @gen_forecast_all. Qed.
(** an iterator that does not give the first time of the window saves nothing *)
Theorem C98_forecast_none : forall (T D S TR : Type) (teq : forall a b : T, {a = b} + {a <> b}) tsub (scheme : TR -> T -> S -> D -> res S) trend t w u0 g traj rest,
  ~ In t g -> gen_forecast teq tsub scheme trend (t :: w) u0 g = Ok (traj, rest) -> traj = [].
Proof. exact @gen_forecast_none. Qed.

(** ensemble_forecast loses every forecast: each time given is associated with an empty list *)
Theorem C98_ensemble : forall (T D S TR : Type) (teq : forall a b : T, {a = b} + {a <> b}) tsub (scheme : TR -> T -> S -> D -> res S) trend w states g d rest,
  gen_ensemble_seq teq tsub scheme trend w states g = Ok (d, rest) ->
  forall t, (In t g -> dget teq t d = Some []) /\ (~ In t g -> dget teq t d = None).
Proof. intros T D S TR teq tsub scheme trend w states g d rest H t. rewrite (gen_ensemble_seq_lost _ _ _ _ _ _ _ _ _ H). exact (empties_get teq tsub scheme trend g t). Qed.
Theorem C98_ensemble_ok : forall (T D S TR : Type) (teq : forall a b : T, {a = b} + {a <> b}) tsub (scheme : TR -> T -> S -> D -> res S) trend w states g,
  (exists d rest, gen_ensemble_seq teq tsub scheme trend w states g = Ok (d, rest)) <-> forall u, In u states -> exists traj, forecast teq tsub scheme trend w u SNone = Ok traj.
Proof. exact @gen_ensemble_seq_fails. Qed.
(** in parallel: the same if the iterator can be pickled, an exception otherwise *)
Theorem C98_ensemble_parallel : forall (T D S TR : Type) (teq : forall a b : T, {a = b} + {a <> b}) tsub (scheme : TR -> T -> S -> D -> res S) trend p w states g d rest,
  gen_ensemble_par teq tsub scheme trend p w states g = Ok (d, rest) ->
  (p = true \/ states = []) /\ forall t, (In t g -> dget teq t d = Some []) /\ (~ In t g -> dget teq t d = None).
Proof.
  intros T D S TR teq tsub scheme trend p w states g d rest H. destruct (gen_ensemble_par_lost _ _ _ _ _ _ _ _ _ _ H) as (-> & _ & Hp).
  split; [exact Hp|]. exact (empties_get teq tsub scheme trend g).
Qed.
(** forecast_tl returns no perturbation *)
Theorem C98_forecast_tl : forall (T D S TR P : Type) (teq : forall a b : T, {a = b} + {a <> b}) tsub (scheme : TR -> T -> S -> D -> res S) trend
    (pert : S -> P -> S) (quot : S -> S -> S) p w u ps g fc tl,
  gen_forecast_tl teq tsub scheme trend pert quot p w u ps g = Ok (fc, tl) ->
  (forall t, dget teq t tl = None \/ dget teq t tl = Some []) /\ (p = true \/ ps = []).
Proof. intros T D S TR P teq tsub scheme trend pert quot p w u ps g fc tl. apply gen_tl_lost. Qed.

(** The result is not that of the list of the same times *)
Definition step (_ : unit) (t u dt : Z) : res Z := Ok (u + dt * t)%Z.
Theorem C98_same_as_list_refuted : exists (w g : list Z) u0 traj traj', NoDup w /\ subsequence g w
  /\ forecast Z.eq_dec Z.sub step tt w u0 (SIter g) = Ok traj
  /\ gen_forecast Z.eq_dec Z.sub step tt w u0 g = Ok (traj', []) /\ dget Z.eq_dec 2%Z traj = Some 1%Z /\ traj' = [].
Proof.
  exists [0; 1; 2]%Z, [2]%Z, 0%Z, [(2, 1)]%Z, []. split; [repeat constructor; cbn; lia|]. split; [repeat constructor|]. repeat split.
Qed.

Example C98_example_prefix : gen_forecast Z.eq_dec Z.sub step tt [0; 1; 2; 3]%Z 5%Z [0; 1; 3]%Z = Ok ([(0, 5); (1, 5)]%Z, [])
  /\ served [0; 1; 2; 3]%Z [0; 1; 3]%Z 2.
Proof.
  split; [reflexivity|]. split; [cbn; lia|]. split; [repeat constructor|]. intros j H1 H2 H.
  assert (In 2%Z [0; 1; 3]%Z). { apply (subsequence_in _ _ H). destruct j as [|[|[|j]]]; [lia|lia|lia|]. cbn. tauto. }
  cbn in H0. lia.
Qed.
Example C98_example_all : gen_forecast Z.eq_dec Z.sub step tt [0; 1; 2]%Z 5%Z [0; 7; 1; 2; 9]%Z = Ok ([(0, 5); (1, 5); (2, 6)]%Z, [9]%Z)
  /\ subsequence [0; 1; 2]%Z [0; 7; 1; 2; 9]%Z.
Proof. split; [reflexivity|]. repeat constructor. Qed.
Example C98_example_ensemble : gen_ensemble_seq Z.eq_dec Z.sub step tt [0; 1; 2]%Z [5; 6]%Z [0; 1; 2]%Z = Ok ([(0, []); (1, []); (2, [])]%Z, [])
  /\ ensemble_seq Z.eq_dec Z.sub step tt [0; 1; 2]%Z [5; 6]%Z (SIter [0; 1; 2]%Z) = Ok [(0, [5; 6]); (1, [5; 6]); (2, [6; 7])]%Z.
Proof. split; reflexivity. Qed.
Example C98_example_parallel : gen_ensemble_par Z.eq_dec Z.sub step tt false [0; 1]%Z [5]%Z [0; 1]%Z = Err TypeError
  /\ gen_ensemble_par Z.eq_dec Z.sub step tt true [0; 1]%Z [5]%Z [0; 1]%Z = Ok ([(0, []); (1, [])]%Z, []).
Proof. split; reflexivity. Qed.
Example C98_example_tl : gen_forecast_tl Z.eq_dec Z.sub step tt Z.add Z.sub true [0; 1]%Z 5%Z [3]%Z [0; 1; 2]%Z = Ok ([(0, 5); (1, 5)]%Z, [(2%Z, [])]).
Proof. reflexivity. Qed.
Example C98_example_predict : gen_predict Z.eq_dec Z.sub step tt [0; 1; 2]%Z 5%Z [1]%Z = Ok ([], [])
  /\ gen_predict Z.eq_dec Z.sub step tt [0; 1; 2]%Z 5%Z [0; 1; 2]%Z = Ok ([5; 5; 6]%Z, []).
Proof. split; reflexivity. Qed.

Print Assumptions C98_forecast.
Print Assumptions C98_served.
Print Assumptions C98_predict.
Print Assumptions C98_forecast_fails.
Print Assumptions C98_forecast_all.
Print Assumptions C98_forecast_none.
Print Assumptions C98_ensemble.
Print Assumptions C98_ensemble_ok.
Print Assumptions C98_ensemble_parallel.
Print Assumptions C98_forecast_tl.
Print Assumptions C98_same_as_list_refuted.
