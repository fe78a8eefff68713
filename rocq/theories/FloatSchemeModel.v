(** The time schemes and the generated expressions in IEEE binary64 arithmetic.

    Modelled: [_euler], [_rk2], [_rk4], [_leapfrog] of /repo/src/sympkf/model/model.py 74-133 on numpy arrays of
    float64, operation by operation in the order of Python; the arithmetic expressions of the lines of the
    generated method trend (templates/footer.py 45-60), as Python parses them.  The exact versions are in
    SchemesModel.v.
    Simplifications: an array is a function of its index, all the arrays have one shape; powers are not modelled,
    a power of a grid spacing is a variable. *)
From Coq Require Import List ZArith Bool.
From Flocq Require Import IEEE754.BinarySingleNaN.
From Verif Require Import PyBase ForecastModel FloatModel.
Import ListNotations.
Open Scope py_scope.

Section Arrays.
  Context {I : Type}.
  (** an array of float64; the states and trends of model.py 74-133 *)
  Definition farr := I -> b64.
  (** [a + b] of numpy arrays, model.py 84, 96-97, 110-113, 128 *)
  Definition fvadd (a b : farr) : farr := fun i => badd (a i) (b i).
  (** [c * a], a number and an array, model.py 84, 97, 110-112 *)
  Definition fvscale (c : b64) (a : farr) : farr := fun i => bmul c (a i).
  (** [a * c], an array and a number, model.py 96, 113, 128 *)
  Definition fvmul (a : farr) (c : b64) : farr := fun i => bmul (a i) c.

  (** the literal 0.5, model.py 96-97, 110-111 *)
  Definition fhalf : b64 := bdiv (of_Z 1) (of_Z 2).
  (** the method trend given to a scheme, model.py 75 *)
  Definition ftrend := b64 -> farr -> res farr.

  (** model.py 74-84 *)
  Definition feuler (trend : ftrend) (t : b64) (state : farr) (dt : b64) : res farr :=
    k <- trend t state ;; Ok (fvadd state (fvscale dt k)).
  (** model.py 86-97 *)
  Definition frk2 (trend : ftrend) (t : b64) (state : farr) (dt : b64) : res farr :=
    k1 <- trend t state ;;
    let state_demi := fvadd state (fvmul k1 (bmul dt fhalf)) in
    k2 <- trend (badd t (bmul fhalf dt)) state_demi ;;
    Ok (fvadd state (fvscale dt k2)).
  (** model.py 99-113 *)
  Definition frk4 (trend : ftrend) (t : b64) (state : farr) (dt : b64) : res farr :=
    k1 <- trend t state ;;
    k2 <- trend (badd t (bmul dt fhalf)) (fvadd state (fvscale (bmul dt fhalf) k1)) ;;
    k3 <- trend (badd t (bmul dt fhalf)) (fvadd state (fvscale (bmul dt fhalf) k2)) ;;
    k4 <- trend (badd t dt) (fvadd state (fvscale dt k3)) ;;
    Ok (fvadd state (fvmul (fvadd (fvadd (fvadd k1 (fvmul k2 (of_Z 2))) (fvmul k3 (of_Z 2))) k4) (bdiv dt (of_Z 6)))).
  (** model.py 115-133: unpacking anything but two states raises ValueError *)
  Definition fleapfrog (trend : ftrend) (t : b64) (states : list farr) (dt : b64) : res (list farr) :=
    match states with
    | [state_0; state_1] =>
        k <- trend t state_1 ;;
        Ok [state_1; fvadd state_0 (fvmul k (bmul (of_Z 2) dt))]
    | _ => Err ValueError
    end.
End Arrays.
Arguments farr : clear implicits.
Arguments ftrend : clear implicits.

(** The arithmetic expressions of templates/footer.py 45-60 as Python parses them: integer literals, names,
    unary minus and the four operations, each with its two operands. *)
Inductive pexp :=
| PInt (z : Z) | PVar (k : nat) | PNeg (a : pexp)
| PAdd (a b : pexp) | PSub (a b : pexp) | PMul (a b : pexp) | PDiv (a b : pexp).

(** the operations of a kind of numbers (floats for the generated code, templates/footer.py 45-60) *)
Record pops (V : Type) := POps {
  o_int : Z -> V; o_neg : V -> V; o_add : V -> V -> V; o_sub : V -> V -> V; o_mul : V -> V -> V; o_div : V -> V -> V }.
Arguments POps {V}. Arguments o_int {V}. Arguments o_neg {V}. Arguments o_add {V}. Arguments o_sub {V}.
Arguments o_mul {V}. Arguments o_div {V}.

(** the value of an expression, templates/footer.py 45-60 *)
Fixpoint peval {V} (o : pops V) (env : nat -> V) (e : pexp) : V :=
  match e with
  | PInt z => o_int o z
  | PVar k => env k
  | PNeg a => o_neg o (peval o env a)
  | PAdd a b => o_add o (peval o env a) (peval o env b)
  | PSub a b => o_sub o (peval o env a) (peval o env b)
  | PMul a b => o_mul o (peval o env a) (peval o env b)
  | PDiv a b => o_div o (peval o env a) (peval o env b)
  end.

(** the operations of float64, an integer operand being converted *)
Definition ops64 : pops b64 := POps of_Z (@Bopp 53 1024) badd bsub bmul bdiv.

(** the names of an expression at the entry [i]: the first ones are the array of the field read at the displaced
    entries (finite_difference.py 325-336), the others are parameters (body_FDModelBuilder.py 31, 60-67) *)
Definition stencil_env {I V : Type} (shifts : list (I -> I)) (params : nat -> V) (s : I -> V) (i : I) (k : nat) : V :=
  match nth_error shifts k with Some f => s (f i) | None => params (k - length shifts) end.

(** a generated trend of one field given by one expression, templates/footer.py 45-60 *)
Definition stencil_trend {I : Type} (shifts : list (I -> I)) (params : nat -> b64) (e : pexp) : ftrend I :=
  fun _ s => Ok (fun i => peval ops64 (stencil_env shifts params s i) e).
