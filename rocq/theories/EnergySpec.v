(** Vocabulary of property C110: energies, and linear dynamics that conserve them. *)
From Coq Require Import List Reals.
From Verif Require Import PyBase Scalars FieldFacts FDReal SchemesModel.
Import ListNotations.
Open Scope R_scope.

Section Energy.
  Context {I : Type}.
  Notation A := (arr RF I).
  (** an inner product of arrays; the energy of [a] is [ip a a] *)
  Record inner_product (ip : A -> A -> R) : Prop := {
    ip_sym : forall a b, ip a b = ip b a;
    ip_add : forall a b c, ip (@vadd RF I a b) c = ip a c + ip b c;
    ip_scale : forall k a c, ip (@vscale RF I k a) c = k * ip a c;
    ip_pos : forall a, 0 <= ip a a }.
  (** the exact dynamics D_t x = f x conserves the energy: the trend is orthogonal to the state *)
  Definition conservative (ip : A -> A -> R) (f : A -> A) : Prop := forall x, ip x (f x) = 0.
  (** the trend multiplies the energy by at most [m]^2 *)
  Definition at_most (ip : A -> A -> R) (f : A -> A) (m : R) : Prop := forall x, ip (f x) (f x) <= m ^ 2 * ip x x.
  (** a mode: the solution from [x] oscillates with the frequency [m] *)
  Definition mode (f : A -> A) (m : R) (x : A) : Prop := f (f x) = @vscale RF I (- m ^ 2)%R x.
End Energy.

(** the window of [N] steps [dt] from [t0] *)
Definition times (t0 dt : R) (N : nat) : list R := map (fun k => t0 + INR k * dt) (seq 0 (S N)).
(** consecutive times differ by at most [tau] *)
Definition by_steps (tau : R) (w : list R) : Prop :=
  forall k t t', nth_error w k = Some t -> nth_error w (S k) = Some t' -> t <= t' <= t + tau.
