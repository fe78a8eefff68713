(** C01-C07: properties of forecast, predict and ensemble_forecast. *)
From Coq Require Import List Arith Bool Lia Permutation ZArith.
From Verif Require Import PyBase PyBaseFacts ForecastModel ForecastSpec ForecastProofs EnsembleProofs
  ForecastMore.
Import ListNotations.
Open Scope py_scope.

Section Props.
  Context {T D S TR : Type}.
  Variable teq : forall a b : T, {a = b} + {a <> b}.
  Variable tsub : T -> T -> D.
  Variable scheme : TR -> T -> S -> D -> res S.
  Variable trend : TR.
  Notation forecast := (forecast teq tsub scheme trend).
  Notation predict := (predict teq tsub scheme trend).
  Notation ensemble_seq := (ensemble_seq teq tsub scheme trend).
  Notation ensemble_par := (ensemble_par teq tsub scheme trend).
  Notation reach := (reach tsub scheme trend).
  Notation last_visit := (last_visit tsub scheme trend).
  Notation first_failure := (first_failure tsub scheme trend).

  (** C01: value at each key, key set and key order *)
  Theorem C01_forecast_values w u0 sv traj :
    forecast w u0 sv = Ok traj ->
    (forall t u, dget teq t traj = Some u <-> is_saved w sv t /\ last_visit w u0 t u).
  Proof. apply forecast_values. Qed.

  Theorem C01_forecast_keys w u0 sv traj :
    forecast w u0 sv = Ok traj ->
    forall l, (forall t, In t l <-> is_saved w sv t) ->
    dkeys traj = firsts teq (filter (fun t => if in_dec teq t l then true else false) w)
    /\ NoDup (dkeys traj)
    /\ (forall t, In t (dkeys traj) <-> In t w /\ is_saved w sv t).
  Proof. apply forecast_keys_full. Qed.

  (** C02: [saved_times] only filters *)
  Theorem C02_saved_times_filter w u0 sv sv' traj :
    sv <> SOther -> sv' <> SOther ->
    forecast w u0 sv = Ok traj ->
    exists traj', forecast w u0 sv' = Ok traj'
      /\ forall t, is_saved w sv t -> is_saved w sv' t -> dget teq t traj' = dget teq t traj.
  Proof. apply forecast_filter. Qed.

  Theorem C02_restriction_of_default w u0 sv traj full :
    forecast w u0 sv = Ok traj -> forecast w u0 SNone = Ok full ->
    forall t u, dget teq t traj = Some u <-> is_saved w sv t /\ dget teq t full = Some u.
  Proof. apply forecast_restriction. Qed.

  Theorem C02_scalar_float w u0 t : forecast w u0 (SFloat t) = forecast w u0 (SIter [t]).
  Proof. apply forecast_float. Qed.

  (** C03: predict *)
  Theorem C03_predict_rows w u0 sv out l :
    predict w u0 sv = Ok out ->
    (forall t, In t l <-> is_saved w sv t) ->
    Forall2 (reach w u0)
      (filter (fun k => match nth_error w k with
                        | Some t => if in_dec teq t l then true else false
                        | None => false end) (seq 0 (length w))) out.
  Proof. apply predict_rows. Qed.

  Theorem C03_predict_is_forecast_values w u0 sv :
    NoDup w -> predict w u0 sv = (d <- forecast w u0 sv ;; Ok (dvalues d)).
  Proof. apply predict_forecast. Qed.

  Theorem C03_predict_fails_iff_forecast_fails w u0 sv e :
    predict w u0 sv = Err e <-> forecast w u0 sv = Err e.
  Proof. apply predict_Err. Qed.

  (** C04: restart *)
  Theorem C04_forecast_restart w1 tm w2 u0 l traj1 um traj2 :
    forecast (w1 ++ [tm]) u0 (SIter l) = Ok traj1 ->
    reach (w1 ++ [tm]) u0 (length w1) um ->
    forecast (tm :: w2) um (SIter l) = Ok traj2 ->
    exists traj, forecast (w1 ++ tm :: w2) u0 (SIter l) = Ok traj
      /\ forall t, dget teq t traj =
           match dget teq t traj2 with Some u => Some u | None => dget teq t traj1 end.
  Proof. apply forecast_restart. Qed.

  (** C05: all the ways to fail *)
  Theorem C05_forecast_failures w u0 sv e :
    forecast w u0 sv = Err e <->
    (w = [] /\ e = IndexError)
    \/ (w <> [] /\ sv = SOther /\ e = TypeError)
    \/ (sv <> SOther /\ first_failure w u0 e).
  Proof. apply forecast_Err. Qed.

  (** C06: the parallel ensemble never blocks, equals the sequential one whatever the
      chunking and the completion order, and is member-wise *)
  Theorem C06_ensemble_schedule_independent w sv states d :
    ensemble_seq w states sv = Ok d ->
    forall chunks sched, concat chunks = states ->
      Permutation sched (seq 0 (length chunks)) ->
      ensemble_par w sv chunks sched = Some (Ok d).
  Proof. apply ensemble_schedule. Qed.

  Theorem C06_ensemble_memberwise w sv states d t :
    ensemble_seq w states sv = Ok d -> In t w -> is_saved w sv t ->
    exists l, dget teq t d = Some l
      /\ Forall2 (fun st u => exists fc, forecast w st sv = Ok fc /\ dget teq t fc = Some u)
                 states l.
  Proof. apply ensemble_memberwise. Qed.

  (** a failure of the parallel ensemble is the failure of some member *)
  Theorem C06_ensemble_failure w sv chunks sched e :
    Permutation sched (seq 0 (length chunks)) ->
    ensemble_seq w (concat chunks) sv = Err e ->
    exists e', ensemble_par w sv chunks sched = Some (Err e')
      /\ (sv = SOther /\ e' = TypeError
          \/ exists st, In st (concat chunks) /\ forecast w st sv = Err e').
  Proof. apply ensemble_failure. Qed.

  Theorem C06_ensemble_ok_iff w sv states :
    sv <> SOther ->
    ((exists d, ensemble_seq w states sv = Ok d)
     <-> forall st, In st states -> exists fc, forecast w st sv = Ok fc).
  Proof. apply ensemble_ok_iff. Qed.

  (** C07: keys *)
  Theorem C07_ensemble_keys w states sv d l :
    saved_list w sv = Some l -> ensemble_seq w states sv = Ok d ->
    dkeys d = firsts teq l
    /\ (forall t, In t l -> In t w -> exists v, dget teq t d = Some v /\ length v = length states)
    /\ (forall t, In t l -> ~ In t w -> dget teq t d = Some []).
  Proof. apply ensemble_keys. Qed.
End Props.

(** ** concrete cases *)
Section Examples.
  Open Scope Z_scope.
  (** trend u' = t*u, Euler step on integers; fails with UserError 7 when u > 100 *)
  Let sch (tr : Z -> Z -> Z) (t u d : Z) : res Z :=
    if (u >? 100)%Z then Err (UserError 7) else Ok (u + d * tr t u).
  Let tr (t u : Z) := t * u.

  Example ex_C01 :
    forecast Z.eq_dec Z.sub sch tr [0; 1; 3; 1] 5 (SIter [1; 7; 0]) = Ok [(0, 5); (1, -75)].
  Proof. reflexivity. Qed.
  Example ex_C01_default :
    forecast Z.eq_dec Z.sub sch tr [0; 1; 3] 5 SNone = Ok [(0, 5); (1, 5); (3, 15)].
  Proof. reflexivity. Qed.
  Example ex_C03 : predict Z.eq_dec Z.sub sch tr [0; 1; 3] 5 (SIter [3; 1]) = Ok [5; 15].
  Proof. reflexivity. Qed.
  (** with a repeated time, predict keeps both visits and forecast only the last one *)
  Example ex_C03_repeat :
    predict Z.eq_dec Z.sub sch tr [0; 1; 0] 5 (SIter [0]) = Ok [5; 0]
    /\ forecast Z.eq_dec Z.sub sch tr [0; 1; 0] 5 (SIter [0]) = Ok [(0, 0)].
  Proof. split; reflexivity. Qed.
  Example ex_C04 :
    forecast Z.eq_dec Z.sub sch tr ([0; 1] ++ [2]) 5 (SIter [0; 2; 3])
      = Ok [(0, 5); (2, 10)]
    /\ forecast Z.eq_dec Z.sub sch tr (2 :: [3]) 10 (SIter [0; 2; 3]) = Ok [(2, 10); (3, 30)]
    /\ forecast Z.eq_dec Z.sub sch tr ([0; 1] ++ 2 :: [3]) 5 (SIter [0; 2; 3])
      = Ok [(0, 5); (2, 10); (3, 30)].
  Proof. repeat split; reflexivity. Qed.
  Example ex_C05 :
    forecast Z.eq_dec Z.sub sch tr [] 5 SNone = Err IndexError
    /\ forecast Z.eq_dec Z.sub sch tr [0; 1] 5 SOther = Err TypeError
    /\ forecast Z.eq_dec Z.sub sch tr [0; 1; 9; 10] 50 SNone = Err (UserError 7).
  Proof. repeat split; reflexivity. Qed.
  (** three members in two chunks, completing in reverse order *)
  Example ex_C06 :
    ensemble_par Z.eq_dec Z.sub sch tr [0; 1; 3] (SIter [3; 8; 3]) [[5]; [6; 7]] [1; 0]%nat
    = Some (Ok [(3, [15; 18; 21]); (8, [])])
    /\ ensemble_seq Z.eq_dec Z.sub sch tr [0; 1; 3] [5; 6; 7] (SIter [3; 8; 3])
    = Ok [(3, [15; 18; 21]); (8, [])].
  Proof. split; reflexivity. Qed.
  (** which member's exception is raised depends on the schedule *)
  Let sch2 (tr : Z -> Z -> Z) (t u d : Z) : res Z := Err (UserError (Z.to_nat u)).
  Theorem C06_exception_depends_on_schedule_refuted :
    exists (chunks : list (list Z)) s1 s2, Permutation s1 (seq 0 (length chunks))
      /\ Permutation s2 (seq 0 (length chunks))
      /\ ensemble_par Z.eq_dec Z.sub sch2 tr [0; 1] SNone chunks s1
         <> ensemble_par Z.eq_dec Z.sub sch2 tr [0; 1] SNone chunks s2.
  Proof.
    exists [[1]; [2]], [0; 1]%nat, [1; 0]%nat. split; [apply Permutation_refl|].
    split; [apply perm_swap|]. vm_compute. discriminate.
  Qed.
End Examples.

Print Assumptions C01_forecast_values.
Print Assumptions C01_forecast_keys.
Print Assumptions C02_saved_times_filter.
Print Assumptions C02_restriction_of_default.
Print Assumptions C02_scalar_float.
Print Assumptions C03_predict_rows.
Print Assumptions C03_predict_is_forecast_values.
Print Assumptions C03_predict_fails_iff_forecast_fails.
Print Assumptions C04_forecast_restart.
Print Assumptions C05_forecast_failures.
Print Assumptions C06_ensemble_schedule_independent.
Print Assumptions C06_ensemble_memberwise.
Print Assumptions C06_ensemble_failure.
Print Assumptions C06_ensemble_ok_iff.
Print Assumptions C06_exception_depends_on_schedule_refuted.
Print Assumptions C07_ensemble_keys.
