(** Closure.correlation_in_diffusion, /repo/src/sympkf/symbolic/pkfcas.py 1308-1326, as a real function
    of two points (conventions of CorrModel). *)
From Coq Require Import Reals.
From Verif Require Import CorrModel.
Open Scope R_scope.

(** pkfcas.py 1308-1326 [Closure.correlation_in_diffusion] *)
Definition correlation_in_diffusion (n : nat) (inv : matrix -> matrix) (det : matrix -> R)
    (nu : vector -> matrix) (px py : vector) : R :=
  let nux := nu px in
  let nuy := nu py in
  let normalization := (Rpower (det nux) (/ 4) * Rpower (det nuy) (/ 4)) / Rpower (det (mscale (/ 2) (madd nux nuy))) (/ 2) in
  let dxy := vsub px py in
  normalization * exp (- / 2 * quad n (inv (madd nux nuy)) dxy).
