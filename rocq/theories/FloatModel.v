(** [Model.window] in IEEE binary64 arithmetic, /repo/src/sympkf/model/model.py 283-284.

    Modelled: the expression [np.arange(start, end+self.dt/3, self.dt)] evaluated on
    Python floats, with the length and the points computed as numpy does
    (numpy/core/src/multiarray/ctors.c, [PyArray_ArangeObj] and [_calc_length];
    arraytypes.c.src, [DOUBLE_fill]).  The arithmetic is Flocq's [binary_float 53 1024]
    with rounding to nearest even.
    Simplifications: there is one NaN; an array too long for the memory is not an
    error.  WindowModel.v is the same function over the rationals. *)
From Coq Require Import List ZArith Bool.
From Flocq Require Import Core.FLX IEEE754.BinarySingleNaN.
From Verif Require Import PyBase ForecastModel.
Import ListNotations.
Open Scope py_scope.

#[global] Instance prec53 : Prec_gt_0 53 := eq_refl.
#[global] Instance emax1024 : Prec_lt_emax 53 1024 := eq_refl.

(** Python's [float], numpy's [float64] *)
Definition b64 : Type := binary_float 53 1024.
(** [+] of floats, model.py 284 and arange of numpy *)
Definition badd (x y : b64) : b64 := Bplus mode_NE x y.
(** [-] of floats, in arange of numpy (model.py 284) *)
Definition bsub (x y : b64) : b64 := Bminus mode_NE x y.
(** [*] of floats, in arange of numpy (model.py 284) *)
Definition bmul (x y : b64) : b64 := Bmult mode_NE x y.
(** [/] of floats, model.py 284 and arange of numpy *)
Definition bdiv (x y : b64) : b64 := Bdiv mode_NE x y.

(** conversion of an integer to [double] *)
Definition of_Z (z : Z) : b64 := binary_normalize 53 1024 _ _ mode_NE z 0 false.

(** [x == 0.] *)
Definition is_zero (x : b64) : bool := match x with B754_zero _ => true | _ => false end.

(** [_arange_safe_ceil_to_intp]: [ceil], refusing NaN, the infinities and what does not
    fit a signed 64-bit integer; the overflow error is turned into [ValueError] by the
    caller. *)
Definition safe_ceil (x : b64) : res Z :=
  match x with
  | B754_zero _ => Ok 0%Z
  | B754_finite s m e _ =>
      let v := if s then Zneg m else Zpos m in
      let c := match e with
               | Z0 => v
               | Zpos p => (v * Z.pow_pos 2 p)%Z
               | Zneg p => (- ((- v) / Z.pow_pos 2 p))%Z
               end in
      if (Z.leb (- Z.pow_pos 2 63) c && Z.ltb c (Z.pow_pos 2 63))%bool
      then Ok c else Err ValueError
  | _ => Err ValueError
  end.

(** [_calc_length]: the number of points; a quotient that underflows counts for one
    point when it is positive. *)
Definition arange_length (start stop step : b64) : res Z :=
  if is_zero step then Err ZeroDivisionError else
  let next := bsub stop start in
  let v := bdiv next step in
  if is_zero v && negb (is_zero next)
  then Ok (if Bsign v then 0%Z else 1%Z)
  else safe_ceil v.

(** [DOUBLE_fill]: the first two points are [start] and [start + step], the others
    [start + i*delta] with [delta] the difference of the first two. *)
Definition arange_point (start step : b64) (i : nat) : b64 :=
  match i with
  | 0 => start
  | 1 => badd start step
  | _ => badd start (bmul (of_Z (Z.of_nat i)) (bsub (badd start step) start))
  end.

(** [np.arange(start, stop, step)] *)
Definition farange (start stop step : b64) : res (list b64) :=
  len <- arange_length start stop step ;;
  Ok (map (arange_point start step) (seq 0 (Z.to_nat len))).

(** [Model.window] (283-284) *)
Definition fwindow (dt stop start : b64) : res (list b64) :=
  farange start (badd stop (bdiv dt (of_Z 3))) dt.

(** Membership and dictionary keys compare times; Leibniz equality of floats is
    Python's [==] except on NaN and the two zeros. *)
Definition sf_dec (x y : SpecFloat.spec_float) : {x = y} + {x <> y}.
Proof. decide equality; auto using bool_dec, Pos.eq_dec, Z.eq_dec. Defined.
(** equality of floats as values of the type; the times of model.py 174, 187 are compared with it *)
Definition b64_dec (x y : b64) : {x = y} + {x <> y}.
Proof.
  destruct (sf_dec (B2SF x) (B2SF y)) as [E|N].
  - left. exact (B2SF_inj 53 1024 x y E).
  - right. intros ->. exact (N eq_refl).
Defined.

(** [Model.forecast] (ForecastModel.v) on a window of floats; the increment given to
    the time scheme is the float difference of the two times. *)
Definition fforecast {S TR : Type} (scheme : TR -> b64 -> S -> b64 -> res S) (trend : TR)
  : list b64 -> S -> saved b64 -> res (dict b64 S) :=
  forecast b64_dec bsub scheme trend.
