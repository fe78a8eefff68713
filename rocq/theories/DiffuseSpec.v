(** Vocabulary of properties C115 and C116: the model generated from diffusion_in_2D, the scheme of centred
    differences, and the solutions. *)
From Coq Require Import List Arith Reals String Permutation.
From Verif Require Import PyBase Scalars FieldFacts SymModel FDReal FDExprSpec FDExprModel GridModel GridSpec ConsistSpec SchemesSpec AdvectSpec DiffuseModel.
Import ListNotations.
Open Scope R_scope.

(** a symmetric tensor of three components *)
Record kappa (X : Type) := tensor2 { k11 : X; k12 : X; k22 : X }.
Arguments tensor2 {X}. Arguments k11 {X}. Arguments k12 {X}. Arguments k22 {X}.
Definition kmap {X Y} (f : X -> Y) (K : kappa X) : kappa Y := tensor2 (f (k11 K)) (f (k12 K)) (f (k22 K)).

(** The class generated from diffusion_in_2D, on the periodic rectangle of sides [lengths] with [shape] points: the
    grid [g]; the arbitrary orders [enum], [ord] of the sets of sympy; the cache of index before each
    derivative is computed, left by arbitrary calls; the attributes, the arrays [K]. *)
Record diffuse_class (lengths : list R) (shape : list nat) (K : kappa (list nat -> R))
    (enum : list sx -> list sx) (ord : list datom -> list datom) (g : @grid RF)
    (caches : R -> list (string * nat) -> (list nat -> R) -> cache) (attr : string -> res (list nat -> R)) : Prop := {
  df_enum : forall l, Permutation (enum l) l;
  df_ord : forall l, Permutation (ord l) l;
  df_sides : List.length lengths = 2%nat /\ forall L, In L lengths -> 0 < L;
  df_grid : @grid_init RF plane (Some shape) (Some lengths) = Ok g;
  df_caches : forall t v a, exists hist, after_history plane shape hist (caches t v a);
  df_attr : attr "kappa_11"%string = Ok (k11 K) /\ attr "kappa_12"%string = Ok (k12 K) /\ attr "kappa_22"%string = Ok (k22 K) }.

(** the second difference along the axis [k] *)
Definition curve (lengths : list R) (shape : list nat) (k : nat) (a : list nat -> R) (js : list nat) : R :=
  (a (next shape k js) - 2 * a js + a (prev shape k js)) / step_of lengths shape k ^ 2.
(** the scheme *)
Definition diffused (lengths : list R) (shape : list nat) (K : kappa (list nat -> R)) (a : list nat -> R) (js : list nat) : R :=
  let D k a := slope lengths shape k a js in
  k11 K js * curve lengths shape 0 a js + 2 * k12 K js * D 0%nat (slope lengths shape 1 a) + k22 K js * curve lengths shape 1 a js
  + (D 0%nat (k11 K) + D 1%nat (k12 K)) * D 0%nat a + (D 0%nat (k12 K) + D 1%nat (k22 K)) * D 1%nat a.
(** a constant tensor *)
Definition uniform {X} (K : kappa R) : kappa (X -> R) := kmap (fun k _ => k) K.
(** positive semi-definite *)
Definition dissipates (K : kappa R) : Prop := 0 <= k11 K /\ 0 <= k22 K /\ k12 K ^ 2 <= k11 K * k22 K.

(** div (K grad U) at the point [p], [K] and [U] given by their derivatives *)
Definition diffusion_of (K : kappa (multi -> point -> R)) (U : multi -> point -> R) (p : point) : R :=
  k11 K none p * U (inc 0 (inc 0 none)) p + 2 * k12 K none p * U (inc 0 (inc 1 none)) p + k22 K none p * U (inc 1 (inc 1 none)) p
  + (k11 K (inc 0 none) p + k12 K (inc 1 none) p) * U (inc 0 none) p + (k12 K (inc 0 none) p + k22 K (inc 1 none) p) * U (inc 1 none) p.
(** the same for a constant tensor *)
Definition diffusion_with (K : kappa R) (U : multi -> point -> R) (p : point) : R :=
  k11 K * U (inc 0 (inc 0 none)) p + 2 * k12 K * U (inc 0 (inc 1 none)) p + k22 K * U (inc 1 (inc 1 none)) p.

(** the limits of tau * 4 (k11 / h1^2 + k22 / h2^2) *)
Definition step_limit (s : onestep) : R := match s with SRk4 => 139 / 50 | _ => 2 end.
Definition stiffness_of (lengths : list R) (shape : list nat) (K : kappa R) : R :=
  4 * (k11 K / step_of lengths shape 0 ^ 2 + k22 K / step_of lengths shape 1 ^ 2).
(** the field of alternating signs *)
Definition alternating (js : list nat) : R := (-1) ^ (nth 0 js O + nth 1 js O).

(** tensors that are smooth and periodic, by their derivatives *)
Definition smooth_function (lengths : list R) (k : multi -> point -> R) : Prop :=
  derivatives_of 2 k /\ periodic lengths (k none) /\ forall a, exists B, forall p, Rabs (k a p) <= B.
Definition smooth_tensor (lengths : list R) (K : kappa (multi -> point -> R)) : Prop :=
  smooth_function lengths (k11 K) /\ smooth_function lengths (k12 K) /\ smooth_function lengths (k22 K).
(** its arrays on a grid *)
Definition tensor_arrays (dx : list R) (K : kappa (multi -> point -> R)) : kappa (list nat -> R) := kmap (fun k => sample dx (k none)) K.
(** the tensor is diagonal, and varies little between the neighbours of a point *)
Definition resolved (shape : list nat) (K : kappa (list nat -> R)) : Prop := forall js, in_range shape js ->
  k12 K js = 0 /\ Rabs (k11 K (next shape 0 js) - k11 K (prev shape 0 js)) <= 4 * k11 K js /\
  Rabs (k22 K (next shape 1 js) - k22 K (prev shape 1 js)) <= 4 * k22 K js.
(** what the second difference of a component has more than its first difference taken twice *)
Definition excess (lengths : list R) (shape : list nat) (K : kappa (list nat -> R)) (js : list nat) : R :=
  (curve lengths shape 0 (k11 K) js - slope lengths shape 0 (slope lengths shape 0 (k11 K)) js)
  + (curve lengths shape 1 (k22 K) js - slope lengths shape 1 (slope lengths shape 1 (k22 K)) js).
