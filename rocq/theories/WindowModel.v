(** Model of [Model.window] and [Model.randstate], /repo/src/sympkf/model/model.py 269-284.

    Simplification: times are exact rationals (Qc) instead of floats, so
    [np.arange(start, stop, step)] has exactly ceil((stop-start)/step) points
    [start + i*step] (numpy's documented length formula). *)
From Coq Require Import List Arith QArith Qcanon Qround ZArith.
From Verif Require Import PyBase Scalars ForecastModel.
Import ListNotations.
Open Scope py_scope.

(** [np.arange(start, stop, step)] *)
Definition arange (start stop step : Qc) : res (list Qc) :=
  if Qc_eq_dec step 0 then Err ZeroDivisionError
  else let n := Z.to_nat (Qceiling ((stop - start) / step)%Qc) in
       Ok (map (fun i => start + Q2Qc (inject_Z (Z.of_nat i)) * step)%Qc (seq 0 n)).

(** model.py 283-284 [Model.window]; [dt] is [self.dt] *)
Definition window (dt : Qc) (endt start : Qc) : res (list Qc) :=
  arange start (endt + dt / Q2Qc 3)%Qc dt.

(** model.py 269-281 [Model.randstate]; [xo] is the random draw of
    [np.random.normal(size=self.n)]; [np.arange(self.nstart)*self.dt]; [t[-1]] raises
    IndexError on an empty array; [forecast(...)[t_end]] is a dictionary lookup. *)
Definition rand_times {K : Fld} (nstart : nat) (dt : K) : list K :=
  map (fun i => fmul (fnat i) dt) (seq 0 nstart).

(** model.py 269-281 *)
Definition randstate {K : Fld} {S TR} (teq : forall a b : K, {a = b} + {a <> b})
  (scheme : TR -> K -> S -> K -> res S) (trend : TR) (nstart : nat) (dt : K) (xo : S) : res S :=
  let t := rand_times nstart dt in
  match last_opt t with
  | None => Err IndexError
  | Some t_end =>
      d <- forecast teq fsub scheme trend t xo (SIter [t_end]) ;;
      dgetE teq t_end d
  end.
