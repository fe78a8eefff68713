(** Sample statistics of an ensemble of arrays. *)
From Coq Require Import List Reals.
Import ListNotations.
Open Scope R_scope.

Section Stat.
  Context {I : Type}.
  (** the sum over the members *)
  Definition total (vs : list (I -> R)) (i : I) : R := fold_right (fun v a => v i + a) 0 vs.
  (** np.mean over the members *)
  Definition emean (vs : list (I -> R)) (i : I) : R := total vs i / INR (length vs).
  (** np.cov over the members (divisor N - 1) *)
  Definition ecov (vs : list (I -> R)) (i j : I) : R :=
    fold_right (fun v a => (v i - emean vs i) * (v j - emean vs j) + a) 0 vs / (INR (length vs) - 1).
End Stat.
