(** The correlation functions of /repo/src/sympkf/symbolic/pkfcas.py 1328-1351 (Closure.correlation)
    and 1456-1473 (LocGaussianClosure.correlation), as real functions of two points.

    A point is a vector, a tensor a matrix, given by their entries of indices lower than [n].
    [inv] and [det] stand for sympy's Matrix.inv and Matrix.det.  x ** Rational(1, 4) is the
    power of a positive real.  Simplification: real arithmetic, tensors as functions of the point. *)
From Coq Require Import Reals.
Open Scope R_scope.

(** a point, pkfcas.py 1346-1347 *)
Definition vector := nat -> R.
(** a tensor at a point, pkfcas.py 1341-1342 *)
Definition matrix := nat -> nat -> R.
(** the sums in the products of matrices of pkfcas.py 1349 and 1467, 1470 *)
Fixpoint rsum (n : nat) (f : nat -> R) : R := match n with O => 0 | S n => rsum n f + f n end.
(** dxy.T @ m @ dxy *)
Definition quad (n : nat) (m : matrix) (v : vector) : R := rsum n (fun i => rsum n (fun j => v i * m i j * v j)).
(** the sum of two tensors, pkfcas.py 1344, 1349 *)
Definition madd (a b : matrix) : matrix := fun i j => a i j + b i j.
(** a number times a tensor, pkfcas.py 1344, 1470 *)
Definition mscale (c : R) (a : matrix) : matrix := fun i j => c * a i j.
(** vx - vy, pkfcas.py 1348, 1463 *)
Definition vsub (a b : vector) : vector := fun i => a i - b i.

Section Correlation.
  Variable n : nat.
  Variable inv : matrix -> matrix.
  Variable det : matrix -> R.
  (** 1328-1351, the tensor [s] is the aspect tensor *)
  Definition correlation (s : vector -> matrix) (px py : vector) : R :=
    let sx := s px in
    let sy := s py in
    let normalization := (Rpower (det sx) (/ 4) * Rpower (det sy) (/ 4)) / Rpower (det (mscale (/ 2) (madd sx sy))) (/ 2) in
    let dxy := vsub px py in
    normalization * exp (- quad n (inv (madd sx sy)) dxy).
  (** 1456-1473 with metric=True, the default and the only one used by taylor *)
  Definition loc_metric (g : vector -> matrix) (px py : vector) : R := exp (- quad n (g px) (vsub px py)).
  (** 1456-1473 with metric=False *)
  Definition loc_aspect (s : vector -> matrix) (px py : vector) : R := exp (- quad n (inv (mscale 2 (s px))) (vsub px py)).
End Correlation.
