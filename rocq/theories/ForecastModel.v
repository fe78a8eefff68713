(** Model of the integration loops of /repo/src/sympkf/model/model.py.

    States, trends, times and time differences are arbitrary types; the time
    scheme is an arbitrary function that may raise.  Floating point equality of
    times is replaced by decidable equality of an arbitrary type (no NaN). *)
From Coq Require Import List Arith Bool.
From Verif Require Import PyBase.
Import ListNotations.
Open Scope py_scope.

(** The values accepted as [saved_times] (model.py 287-292): [None], a [float] or
    [np.float64], an iterable, or any other scalar such as an [int].
    Simplification: iterables are re-iterable (lists, tuples, arrays), one-shot
    generators are modelled separately in [ForecastGenModel]. *)
Inductive saved (T : Type) :=
| SNone
| SFloat (t : T)
| SIter (l : list T)
| SOther.
Arguments SNone {T}.
Arguments SFloat {T} t.
Arguments SIter {T} l.
Arguments SOther {T}.

Section Forecast.
  Context {T D S TR : Type}.
  Variable teq : forall a b : T, {a = b} + {a <> b}.
  Variable tsub : T -> T -> D.
  (** [self.time_scheme], [self.trend] *)
  Variable scheme : TR -> T -> S -> D -> res S.
  Variable trend : TR.

  (** model.py 286-292 [_check_saved_times] *)
  Definition check_saved_times (window : list T) (sv : saved T) : saved T :=
    match sv with
    | SNone => SIter window
    | SFloat t => SIter [t]
    | other => other
    end.

  (** [time in saved_times] after [_check_saved_times] *)
  Definition py_in (t : T) (sv : saved T) : res bool :=
    match sv with
    | SIter l => Ok (lmem teq t l)
    | _ => Err TypeError
    end.

  (** model.py 173-185: the loop of [forecast] over [zip(window[:-1], window[1:])] *)
  Fixpoint forecast_loop (sv : saved T) (pairs : list (T * T)) (traj : dict T S) (u0 : S)
    : res (dict T S * S) :=
    match pairs with
    | [] => Ok (traj, u0)
    | (time, next_time) :: rest =>
        b <- py_in time sv ;;
        let traj := if b then dset teq time u0 traj else traj in
        let dt := tsub next_time time in
        u1 <- scheme trend time u0 dt ;;
        forecast_loop sv rest traj u1
    end.

  (** [zip(window[:-1], window[1:])] *)
  Definition intervals (window : list T) : list (T * T) :=
    combine (removelast window) (tl window).

  (** model.py 160-188 [Model.forecast] *)
  Definition forecast (window : list T) (u0 : S) (sv : saved T) : res (dict T S) :=
    let sv := check_saved_times window sv in
    r <- forecast_loop sv (intervals window) [] u0 ;;
    let '(traj, u) := r in
    match last_opt window with
    | None => Err IndexError
    | Some time =>
        b <- py_in time sv ;;
        Ok (if b then dset teq time u traj else traj)
    end.

  (** model.py 203-214: the loop of [predict] *)
  Fixpoint predict_loop (sv : saved T) (pairs : list (T * T)) (traj : list S) (u0 : S)
    : res (list S * S) :=
    match pairs with
    | [] => Ok (traj, u0)
    | (time, next_time) :: rest =>
        b <- py_in time sv ;;
        let traj := if b then traj ++ [u0] else traj in
        let dt := tsub next_time time in
        u1 <- scheme trend time u0 dt ;;
        predict_loop sv rest traj u1
    end.

  (** model.py 190-218 [Model.predict]; the final [np.array(traj)] is kept as the
      list of its rows. *)
  Definition predict (window : list T) (u0 : S) (sv : saved T) : res (list S) :=
    let sv := check_saved_times window sv in
    r <- predict_loop sv (intervals window) [] u0 ;;
    let '(traj, u) := r in
    match last_opt window with
    | None => Err IndexError
    | Some time =>
        b <- py_in time sv ;;
        Ok (if b then traj ++ [u] else traj)
    end.

  (** model.py 246-247 and 252-253:
      [for time in forecast: forecasts[time].append(forecast[time])] *)
  Definition append_all (forecasts : dict T (list S)) (fc : dict T S)
    : res (dict T (list S)) :=
    foldM (fun d time =>
             l <- dgetE teq time d ;;
             u <- dgetE teq time fc ;;
             Ok (dset teq time (l ++ [u]) d)) forecasts (dkeys fc).

  (** model.py 237 [{time:[] for time in saved_times}] *)
  Definition init_forecasts (sv : saved T) : res (dict T (list S)) :=
    match sv with
    | SIter l => Ok (fold_left (fun d time => dset teq time [] d) l [])
    | _ => Err TypeError
    end.

  (** model.py 250-253: the sequential branch of [ensemble_forecast] *)
  Definition ensemble_seq (window : list T) (states : list S) (sv : saved T)
    : res (dict T (list S)) :=
    let sv := check_saved_times window sv in
    f0 <- init_forecasts sv ;;
    foldM (fun d state => fc <- forecast window state sv ;; append_all d fc) f0 states.
End Forecast.

(** model.py 8-19 [Parallel.run] = [multiprocessing.Pool.map].  The argument list is
    cut in chunks; chunk [i], once some worker has run it, stores its results at
    position [i]; the first failure to be reported is kept and re-raised when all
    chunks are done.  [sched] is the order in which chunks complete. *)
Section Pool.
  Context {A B : Type}.
  Variable f : A -> res B.

  (** the result object of Pool.map, model.py 17-18 *)
  Record pool_state := mkPool {
    slots : list (option (list B));
    failure : option exn }.

  (** one chunk completes *)
  Definition pool_step (chunks : list (list A)) (s : pool_state) (i : nat) : pool_state :=
    match nth_error chunks i with
    | None => s
    | Some c =>
        match mapM f c with
        | Ok ys => mkPool (set_nth i (Some ys) (slots s)) (failure s)
        | Err e => mkPool (slots s)
                     (match failure s with None => Some e | Some e' => Some e' end)
        end
    end.

  (** before any chunk is completed, model.py 17-18 *)
  Definition pool_init (chunks : list (list A)) : pool_state :=
    mkPool (map (fun _ => None) chunks) None.

  (** all the results in order, when none is missing, model.py 18-19 *)
  Fixpoint collect (l : list (option (list B))) : option (list B) :=
    match l with
    | [] => Some []
    | Some ys :: r => match collect r with Some zs => Some (ys ++ zs) | None => None end
    | None :: _ => None
    end.

  (** result of [pool.map] after the completion events [sched]; [None] means that
      some chunk has not completed yet (the call is still blocked). *)
  Definition pool_map (chunks : list (list A)) (sched : list nat) : option (res (list B)) :=
    let s := fold_left (pool_step chunks) sched (pool_init chunks) in
    match failure s with
    | Some e => if Nat.leb (length chunks) (length sched) then Some (Err e) else None
    | None => match collect (slots s) with Some l => Some (Ok l) | None => None end
    end.
End Pool.

Section Ensemble.
  Context {T D S TR : Type}.
  Variable teq : forall a b : T, {a = b} + {a <> b}.
  Variable tsub : T -> T -> D.
  Variable scheme : TR -> T -> S -> D -> res S.
  Variable trend : TR.

  (** model.py 239-247: the parallel branch.  [chunks] is the chunking of [states]
      chosen by the pool and [sched] the completion order.  [None]: still blocked. *)
  Definition ensemble_par (window : list T) (sv : saved T)
             (chunks : list (list S)) (sched : list nat)
    : option (res (dict T (list S))) :=
    let sv := check_saved_times window sv in
    match init_forecasts (S:=S) teq sv with
    | Err e => Some (Err e)
    | Ok f0 =>
        match pool_map (fun state => forecast teq tsub scheme trend window state sv)
                       chunks sched with
        | None => None
        | Some (Err e) => Some (Err e)
        | Some (Ok tmp_forecasts) => Some (foldM (append_all teq) f0 tmp_forecasts)
        end
    end.

  (** model.py 256-267 [Model.forecast_tl].  [pert state p] is [state + p*h] and
      [quot a b] is [(a-b)/h].  The call to [ensemble_forecast] uses the parallel
      branch, whose value is given by [ens] (instantiated with [ensemble_seq] or with
      any completed run of [ensemble_par]). *)
  Context {P : Type}.
  Variable pert : S -> P -> S.
  Variable quot : S -> S -> S.
  Variable ens : list T -> list S -> saved T -> res (dict T (list S)).

  (** model.py 256-267 [Model.forecast_tl] *)
  Definition forecast_tl (window : list T) (state : S) (perturbations : list P)
             (sv : saved T) : res (dict T S * dict T (list S)) :=
    let sv := check_saved_times window sv in
    fc <- forecast teq tsub scheme trend window state sv ;;
    tl <- ens window (map (pert state) perturbations) sv ;;
    match sv with
    | SIter l =>
        tl' <- foldM (fun d q =>
                 lst <- dgetE teq q d ;;
                 lst' <- mapM (fun st => r <- dgetE teq q fc ;; Ok (quot st r)) lst ;;
                 Ok (dset teq q lst' d)) tl l ;;
        Ok (fc, tl')
    | _ => Err TypeError
    end.

  (** model.py 304-324 [LinearModel.make_M] (branch [new = True]; the other branch is
      dead code).  [dirac i] is the i-th basis state; the result is the list of the
      rows of the returned array. *)
  Definition make_M (n : nat) (dirac : nat -> S) (window : list T) : res (list S) :=
    match last_opt window with
    | None => Err IndexError
    | Some tend =>
        d <- ens window (map dirac (seq 0 n)) (SIter [tend]) ;;
        dgetE teq tend d
    end.
End Ensemble.
