(** Specification of the periodic grid. *)
From Coq Require Import List Arith ZArith Bool String.
From Verif Require Import PyBase Scalars FieldFacts FDExprModel GridModel.
Import ListNotations.
Open Scope list_scope.

(** what [index(coord, step)] must return on an axis of n points *)
Definition shifted (n : nat) (step : Z) : list Z :=
  map (fun i => ((Z.of_nat i + step) mod Z.of_nat n)%Z) (seq 0 n).

(** multi-indices of the grid *)
Definition in_range (shape : list nat) (js : list nat) : Prop := Forall2 (fun n j => j < n)%nat shape js.

(** periodic translation of a multi-index *)
Fixpoint wrap (shape : list nat) (disp : list Z) (js : list nat) : list nat :=
  match shape, disp, js with
  | n :: shape, s :: disp, j :: js => Z.to_nat ((Z.of_nat j + s) mod Z.of_nat n) :: wrap shape disp js
  | _, _, _ => []
  end.

Section Sums.
  Context {K : Fld}.
  Open Scope fld_scope.
  (** sum over all the points of the grid *)
  Fixpoint gsum (shape : list nat) (f : list nat -> K) : K :=
    match shape with
    | [] => f []
    | n :: r => fsum n (fun i => gsum r (fun js => f (i :: js)))
    end.
  (** linear combination of translated arrays *)
  Definition lin_shift (shape : list nat) (l : list (K * list Z)) (a : list nat -> K) : list nat -> K :=
    fun js => fold_right (fun cd acc => fst cd * a (wrap shape (snd cd) js) + acc) 0 l.
End Sums.

(** caches a model object can be in after its constructor and any calls of [index] *)
Definition after_history (coords : list string) (shape : list nat) (hist : list (string * Z)) (d : cache) : Prop :=
  exists d0, init_index coords shape = Ok d0 /\ d = snd (index_calls coords shape d0 hist).

(** the generated code of a derivative, evaluated at a cache state *)
Definition generated_derivative {K : Fld} (coords : list string) (shape : list nat) (d : cache)
    (l : list (term K)) (u : @arr K) : res (@arr K) :=
  fst (eval_terms coords shape d u (map (fun t => (fst t, fst (snd t))) l)).
