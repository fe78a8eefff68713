(** Time schemes of /repo/src/sympkf/model/model.py (lines 39-157), on arrays of a
    fixed shape (functions from an index type) over an arbitrary field of
    characteristic 0.  Simplifications: exact arithmetic instead of floats, one
    fixed shape (no broadcasting).  The trend may raise. *)
From Coq Require Import List String Bool.
From Verif Require Import PyBase Scalars.
Import ListNotations.
Open Scope py_scope.

Section Arrays.
  Context {K : Fld} {I : Type}.
  (** a numpy array of one fixed shape, model.py 75-133 *)
  Definition arr := I -> K.
  (** the array of zeros, model.py 300 *)
  Definition vzero : arr := fun _ => f0.
  (** [+] of arrays, model.py 84, 96-97, 110-113, 128 *)
  Definition vadd (a b : arr) : arr := fun i => fadd (a i) (b i).
  (** [-] of arrays, model.py 266 *)
  Definition vsub (a b : arr) : arr := fun i => fsub (a i) (b i).
  (** a number times an array, model.py 84, 96-97, 110-113, 128 *)
  Definition vscale (c : K) (a : arr) : arr := fun i => fmul c (a i).
  (** an array divided by a number, model.py 266 *)
  Definition vdiv (a : arr) (c : K) : arr := fun i => fdiv (a i) c.
End Arrays.
Arguments arr : clear implicits.

Section Schemes.
  Context {K : Fld} {I : Type}.
  Notation A := (arr K I).
  Definition half : K := fdiv f1 (fnat 2).    (* 0.5 *)
  Definition trendT := K -> A -> res A.

  (** model.py 75-84 [_euler] *)
  Definition euler (trend : trendT) (t : K) (state : A) (dt : K) : res A :=
    k <- trend t state ;;
    Ok (vadd state (vscale dt k)).

  (** model.py 87-97 [_rk2] *)
  Definition rk2 (trend : trendT) (t : K) (state : A) (dt : K) : res A :=
    k1 <- trend t state ;;
    let state_demi := vadd state (vscale (fmul dt half) k1) in
    k2 <- trend (fadd t (fmul half dt)) state_demi ;;
    Ok (vadd state (vscale dt k2)).

  (** model.py 100-113 [_rk4] *)
  Definition rk4 (trend : trendT) (t : K) (state : A) (dt : K) : res A :=
    k1 <- trend t state ;;
    k2 <- trend (fadd t (fmul dt half)) (vadd state (vscale (fmul dt half) k1)) ;;
    k3 <- trend (fadd t (fmul dt half)) (vadd state (vscale (fmul dt half) k2)) ;;
    k4 <- trend (fadd t dt) (vadd state (vscale dt k3)) ;;
    Ok (vadd state
          (vscale (fdiv dt (fnat 6))
             (vadd (vadd (vadd k1 (vscale (fnat 2) k2)) (vscale (fnat 2) k3)) k4))).

  (** model.py 116-133 [_leapfrog]; [states] is the Python sequence of the two states,
      unpacking anything but two raises ValueError. *)
  Definition leapfrog (trend : trendT) (t : K) (states : list A) (dt : K) : res (list A) :=
    match states with
    | [state_0; state_1] =>
        k <- trend t state_1 ;;
        let state_2 := vadd state_0 (vscale (fmul (fnat 2) dt) k) in
        Ok [state_1; state_2]
    | _ => Err ValueError
    end.
End Schemes.

(** model.py 136-157 [_time_splitting].  A fractional step is a Python dict, of which
    only the keys 'update', 'trend', 'scheme' are read. *)
Section Splitting.
  Context {T S D TR : Type}.
  (** one fractional step: the keys read by model.py 149-155 *)
  Record fstep := mkStep {
    st_update : option (T -> S -> D -> res S);
    st_trend : option TR;
    st_scheme : option (TR -> T -> S -> D -> res S) }.

  (** the body of the loop, model.py 149-156 *)
  Definition frac_step (time : T) (dt : D) (state : S) (s : fstep) : res S :=
    match st_update s with
    | Some update => update time state dt
    | None =>
        match st_trend s with
        | None => Err KeyError
        | Some loc_tendance =>
            match st_scheme s with
            | None => Err KeyError
            | Some loc_schema => loc_schema loc_tendance time state dt
            end
        end
    end.

  (** model.py 148-157 *)
  Definition time_splitting (trend : list fstep) (time : T) (state : S) (dt : D) : res S :=
    foldM (frac_step time dt) state trend.
End Splitting.
Arguments fstep : clear implicits.

(** model.py 39-61: the scheme table, the constructor and [set_time_scheme].  The object
    state is the active entry of the table ([self.time_scheme]). *)
Inductive scheme_id := Leapfrog | Rk4 | Rk2 | Euler | Splitting.

(** the table, model.py 40-46 *)
Definition time_schemes : dict string scheme_id :=
  [("leapfrog", Leapfrog); ("rk4", Rk4); ("rk2", Rk2); ("euler", Euler);
   ("splitting", Splitting)]%string.

(** model.py 57-61; returns the new object state and the outcome of the call *)
Definition set_time_scheme (active : option scheme_id) (name : string)
  : option scheme_id * res unit :=
  match dget string_dec name time_schemes with
  | Some s => (Some s, Ok tt)
  | None => (active, Err ValueError)
  end.

(** model.py 39-48 *)
Definition model_init (time_scheme : string) : res scheme_id :=
  match set_time_scheme None time_scheme with
  | (Some s, Ok _) => Ok s
  | (_, Err e) => Err e
  | (None, Ok _) => Err AttributeError
  end.

(** the method stored under each entry, for the schemes acting on a single state
    ([leapfrog] acts on a pair of states, [splitting] takes a list as trend) *)
Definition single_state_scheme {K : Fld} {I} (s : scheme_id)
  : option (@trendT K I -> K -> arr K I -> K -> res (arr K I)) :=
  match s with
  | Rk4 => Some rk4 | Rk2 => Some rk2 | Euler => Some euler
  | Leapfrog => None | Splitting => None
  end.

(** model.py 294-300 [IdentityModel.trend] *)
Definition identity_trend {K : Fld} {I} : @trendT K I := fun _ _ => Ok vzero.
