(** Model of the loops of /repo/src/sympkf/model/model.py when [saved_times] is a one-shot iterator
    (a generator, [iter(l)], [map(...)]): [time in saved_times] advances it.  The iterator is finite
    and is represented by the values it has still to give. *)
From Coq Require Import List Arith Bool.
From Verif Require Import PyBase ForecastModel.
Import ListNotations.
Open Scope py_scope.

Section Gen.
  Context {T D S TR : Type}.
  Variable teq : forall a b : T, {a = b} + {a <> b}.
  Variable tsub : T -> T -> D.
  Variable scheme : TR -> T -> S -> D -> res S.
  Variable trend : TR.

  (** [time in it]: values are taken until one is equal to [time]; all of them if none is *)
  Fixpoint iter_in (t : T) (it : list T) : bool * list T :=
    match it with
    | [] => (false, [])
    | x :: r => if teq t x then (true, r) else iter_in t r
    end.

  (** model.py 173-185, [_check_saved_times] (286-292) returns the iterator itself *)
  Fixpoint gen_forecast_loop (pairs : list (T * T)) (it : list T) (traj : dict T S) (u0 : S)
    : res (dict T S * S * list T) :=
    match pairs with
    | [] => Ok (traj, u0, it)
    | (time, next_time) :: rest =>
        let '(b, it) := iter_in time it in
        let traj := if b then dset teq time u0 traj else traj in
        let dt := tsub next_time time in
        u1 <- scheme trend time u0 dt ;;
        gen_forecast_loop rest it traj u1
    end.
  (** model.py 160-188: the dictionary and what is left of the iterator *)
  Definition gen_forecast (window : list T) (u0 : S) (it : list T) : res (dict T S * list T) :=
    r <- gen_forecast_loop (intervals window) it [] u0 ;;
    let '(traj, u, it) := r in
    match last_opt window with
    | None => Err IndexError
    | Some time => let '(b, it) := iter_in time it in Ok (if b then dset teq time u traj else traj, it)
    end.

  (** model.py 203-214 *)
  Fixpoint gen_predict_loop (pairs : list (T * T)) (it : list T) (traj : list S) (u0 : S)
    : res (list S * S * list T) :=
    match pairs with
    | [] => Ok (traj, u0, it)
    | (time, next_time) :: rest =>
        let '(b, it) := iter_in time it in
        let traj := if b then traj ++ [u0] else traj in
        let dt := tsub next_time time in
        u1 <- scheme trend time u0 dt ;;
        gen_predict_loop rest it traj u1
    end.
  (** model.py 190-218 *)
  Definition gen_predict (window : list T) (u0 : S) (it : list T) : res (list S * list T) :=
    r <- gen_predict_loop (intervals window) it [] u0 ;;
    let '(traj, u, it) := r in
    match last_opt window with
    | None => Err IndexError
    | Some time => let '(b, it) := iter_in time it in Ok (if b then traj ++ [u] else traj, it)
    end.

  (** model.py 237: the comprehension takes all the values *)
  Definition gen_init (it : list T) : dict T (list S) * list T :=
    (fold_left (fun d time => dset teq time [] d) it [], []).

  (** model.py 250-253 *)
  Definition gen_ensemble_seq (window : list T) (states : list S) (it : list T)
    : res (dict T (list S) * list T) :=
    let '(f0, it) := gen_init it in
    foldM (fun (a : dict T (list S) * list T) state =>
             r <- gen_forecast window state (snd a) ;;
             d <- append_all teq (fst a) (fst r) ;; Ok (d, snd r)) (f0, it) states.

  (** model.py 239-247: the tasks hold the iterator, which is pickled to reach the workers (each
      works on its own copy).  Generators cannot be pickled, iterators of lists and of ranges can.
      Simplification: the forecasts are run in order, the first exception is the one raised. *)
  Definition gen_ensemble_par (picklable : bool) (window : list T) (states : list S) (it : list T)
    : res (dict T (list S) * list T) :=
    let '(f0, it) := gen_init it in
    match states, picklable with
    | _ :: _, false => Err TypeError
    | _, _ =>
        fcs <- mapM (fun state => r <- gen_forecast window state it ;; Ok (fst r)) states ;;
        d <- foldM (append_all teq) f0 fcs ;; Ok (d, it)
    end.

  (** model.py 256-267 *)
  Context {P : Type}.
  Variable pert : S -> P -> S.
  Variable quot : S -> S -> S.
  (** model.py 256-267 with a generator for saved_times *)
  Definition gen_forecast_tl (picklable : bool) (window : list T) (state : S) (perturbations : list P) (it : list T)
    : res (dict T S * dict T (list S)) :=
    r <- gen_forecast window state it ;;
    let '(fc, it) := r in
    e <- gen_ensemble_par picklable window (map (pert state) perturbations) it ;;
    let '(tl, it) := e in
    tl' <- foldM (fun d q =>
             lst <- dgetE teq q d ;;
             lst' <- mapM (fun st => r <- dgetE teq q fc ;; Ok (quot st r)) lst ;;
             Ok (dset teq q lst' d)) tl it ;;
    Ok (fc, tl').
End Gen.
