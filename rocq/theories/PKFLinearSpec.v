(** Linear dynamics of one field, transport, and the parametric dynamics they are known to have.
    This is specification, not code of /repo. *)
From Coq Require Import List Arith QArith Qcanon String.
From Verif Require Import PyBase Reynolds PKFModel PKFSpec.
Import ListNotations.
Close Scope Q_scope.
Close Scope Qc_scope.
Open Scope nat_scope.
Open Scope string_scope.
Open Scope list_scope.

(** in every product of [p] at most one factor is a prognostic function or a derivative of one *)
Definition prognostic (a : atom) : bool := match a with AJet (FField _) _ => true | _ => false end.
Definition linear_poly (p : poly) : Prop := forall c m, In (c, m) p -> List.length (filter prognostic m) <= 1.

(** no average in the right-hand sides *)
Definition no_average (s : list pequation) : Prop := forall q l, In q s -> ~ averaged_in l (snd q).

(** one equation for the mean, one for the variance, one for each entry of the symmetric tensor [f] *)
Definition one_field_system (coords : list string) (f : nat -> nat -> nat -> fn) (s : list pequation) : Prop :=
  exists fs, NoDup fs /\ map fst s = map time_derivative fs
    /\ forall g, In g fs <-> g = FField 0 \/ g = FVar 0 \/ exists a b, a <= b /\ b < List.length coords /\ g = f 0 a b.

(** ** D_t c = - w . grad c + r c + q, in any number of dimensions.  Component [k] of [w] is a function
    of the coordinates [deps k]; [growth] and [source] are the coordinates of [r] and of [q], if there are
    such terms. *)
Section Transport.
  Variables (coords : list string) (deps : nat -> list string) (growth source : option (list string)).
  Notation d := (List.length coords).
  Definition transport_rhs : poly :=
    map (fun k => ((-1)%Q, [AJet (FExt k (deps k)) []; AJet (FField 0) [nth k coords ""]])) (seq 0 d)
    ++ match growth with None => [] | Some l => [(1%Q, [AJet (FExt d l) []; AJet (FField 0) []])] end
    ++ match source with None => [] | Some l => [(1%Q, [AJet (FExt (S d) l) []])] end.

  Context {A : RAlg} (E : env A).
  Open Scope ra_scope.
  Definition wind (k : nat) : A := e_fn E (FExt k (deps k)).
  Definition growth_rate : A := match growth with None => 0 | Some l => e_fn E (FExt d l) end.
  Definition source_rate : A := match source with None => 0 | Some l => e_fn E (FExt (S d) l) end.
  Definition over (f : nat -> A) : A := asum (map f (seq 0 d)).
  (** w . grad x *)
  Definition along (x : A) : A := over (fun k => wind k * dd (nth k coords ""%string) x).
  (** the derivative of component [k] of the wind along coordinate [a] *)
  Definition shear (a k : nat) : A := dd (nth a coords ""%string) (wind k).

  (** the mean is transported like the field; the variance is transported and grows at twice the rate;
      the metric, covariant, and the tensors in the direction of its inverse, contravariant, are
      transported and deformed by the shear of the wind, the growth has no effect on them *)
  Definition transport_rate (f : fn) : A :=
    match f with
    | FField 0 => - along (e_fn E (FField 0)) + growth_rate * e_fn E (FField 0) + source_rate
    | FVar 0 => - along (e_fn E (FVar 0)) + (growth_rate + growth_rate) * e_fn E (FVar 0)
    | FMet 0 a b => - along (tensor_matrix E FMet 0 a b)
        - over (fun k => shear a k * tensor_matrix E FMet 0 k b + shear b k * tensor_matrix E FMet 0 a k)
    | FDif 0 a b => - along (tensor_matrix E FDif 0 a b)
        + over (fun k => tensor_matrix E FDif 0 a k * shear k b + tensor_matrix E FDif 0 k b * shear k a)
    | FAsp 0 a b => - along (tensor_matrix E FAsp 0 a b)
        + over (fun k => tensor_matrix E FAsp 0 a k * shear k b + tensor_matrix E FAsp 0 k b * shear k a)
    | _ => 0
    end.

  (** every right-hand side of [s] has the value of the transport rate of the function of its left-hand side *)
  Definition transports (s : list pequation) : Prop :=
    forall l r, In (l, r) s -> exists f, l = time_derivative f /\ pv E r = transport_rate f.
End Transport.
