(** Expressions whose derivatives are spatial. *)
From Coq Require Import List Arith ZArith QArith Bool String Sorted.
From Verif Require Import PyBase PKFModel PKFSpec.
Import ListNotations.
Open Scope string_scope.

(** a derivative along the coordinates [coords], its variables sorted by name *)
Definition spatial_word (coords : list string) (w : word) : Prop :=
  StronglySorted (fun a b => String.ltb b a = false) w /\ incl w coords.

(** Every derivative of [p] is spatial, those of external functions excepted: an equation written
    with them may be differentiated in time.  Averages are averages of random functions. *)
Definition spatial_poly (coords : list string) (p : poly) : Prop :=
  forall c m a, In (c, m) p -> In a m ->
    match a with
    | AJet f w => external f \/ spatial_word coords w
    | AExp w l => spatial_word coords w /\ forall j, In j l -> is_random (fst j) = true /\ spatial_word coords (snd j)
    | _ => True
    end.
Definition spatial_system (coords : list string) (sys : list pequation) : Prop :=
  forall q, In q sys -> spatial_poly coords (snd q).

(** ** averages that the internal closure knows, and those that may remain *)
Definition internal_key (coords : list string) (n : nat) (l : list jet) : Prop :=
  (exists i, (i < n)%nat /\ (l = [(FErr i, [])] \/ l = [(FEps i, [])]))
  \/ (exists i j, (i <= j)%nat /\ (j < n)%nat /\ l = [(FErr i, []); (FErr j, [])])
  \/ (exists i j, (i < j)%nat /\ (j < n)%nat /\ l = [(FEps i, []); (FEps j, [])])
  \/ (exists i w, (i < n)%nat /\ spatial_word coords w /\ (List.length w <= 3)%nat /\ l = [(FEps i, []); (FEps i, w)]).

(** Averages of products of normalised errors.  A product of two factors is either of two fields,
    with a derivative, or of one field, undifferentiated, by one of its derivatives of order at least 4. *)
Definition reduced (n : nat) (l : list jet) : Prop :=
  (2 <= List.length l)%nat /\ (forall j, In j l -> normalised_error n (fst j))
  /\ forall i w j w', l = [(FEps i, w); (FEps j, w')] ->
       (i <> j /\ (w <> [] \/ w' <> [])) \/ (i = j /\ w = [] /\ (4 <= List.length w')%nat).

(** the factors of the averages of [p] are sorted, and averages of one factor are not those of a
    derivative: what Expectation always returns *)
Definition averages_sorted (p : poly) : Prop :=
  forall l, averaged_in l p -> jkey l = l /\ l <> [] /\ (forall j, l = [j] -> snd j = []).
