(** The quantities attached to the fields of a system, and sufficient conditions on names.
    Specification, not code of /repo. *)
From Coq Require Import List Arith Bool String.
From Verif Require Import PyBase StrModel NameModel.
Import ListNotations.
Open Scope string_scope.
Open Scope list_scope.
Open Scope nat_scope.

Inductive quantity :=
| Value (i : nat) | Random (i : nat) | Error (i : nat) | Epsilon (i : nat) | Variance (i : nat) | Std (i : nat)
| Metric (i a b : nat) | Diffusion (i a b : nat) | Aspect (i a b : nat)
| Covariance (i j : nat).

(** the quantities of a system of [n] fields with [d] spatial coordinates: the tensors are
    symmetric, so their entries are those with a <= b *)
Definition exists_in (n d : nat) (q : quantity) : Prop :=
  match q with
  | Value i | Random i | Error i | Epsilon i | Variance i | Std i => i < n
  | Metric i a b | Diffusion i a b | Aspect i a b => i < n /\ a <= b /\ b < d
  | Covariance i j => i < j /\ j < n
  end.

(** the symbolic function that stands for a quantity *)
Definition symbol_of (fields : list func) (q : quantity) (g : func) : Prop :=
  match q with
  | Value i => nth_error fields i = Some g
  | Random i => exists f, nth_error fields i = Some f /\ g = random f
  | Error i => exists f, nth_error fields i = Some f /\ g = error f
  | Epsilon i => exists f, nth_error fields i = Some f /\ g = epsilon f
  | Variance i => exists f, nth_error fields i = Some f /\ g = variance f
  | Std i => exists f, nth_error fields i = Some f /\ g = std f
  | Metric i a b => exists f, nth_error fields i = Some f /\ metric_func f a b = Ok g
  | Diffusion i a b => exists f, nth_error fields i = Some f /\ nu_func f a b = Ok g
  | Aspect i a b => exists f, nth_error fields i = Some f /\ aspect_func f a b = Ok g
  | Covariance i j => exists f f', nth_error fields i = Some f /\ nth_error fields j = Some f' /\ get_covariance fields f f' = Ok g
  end.

(** the quantities that depend on the event omega, those that are positive, those that are only real *)
Definition depends_on_omega (q : quantity) : bool := match q with Random _ | Error _ | Epsilon _ => true | _ => false end.
Definition is_positive (q : quantity) : bool := match q with Variance _ | Std _ => true | _ => false end.
Definition is_entry (q : quantity) : bool := match q with Metric _ _ _ | Diffusion _ _ _ | Aspect _ _ _ => true | _ => false end.

(** no name of the list begins another one *)
Definition prefix_free (l : list string) : Prop :=
  forall i j a b r, nth_error l i = Some a -> nth_error l j = Some b -> b = (a ++ r)%string -> i = j.
Definition same_lengths (l : list string) : Prop := forall a b, In a l -> In b l -> String.length a = String.length b.

(** a field name that is not the label of an attached quantity *)
Definition user_name (s : string) : Prop := (forall r, s <> ("{" ++ r)%string) /\ (forall r, s <> ("V_" ++ r)%string).
