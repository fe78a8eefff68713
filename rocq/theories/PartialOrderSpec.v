(** What partial orders of derivatives should be: stated without the functions of
    PartialOrderModel (only its data types). *)
From Coq Require Import List Arith ZArith Bool String.
From Verif Require Import PyBase PartialOrderModel.
Import ListNotations.
Open Scope list_scope.

(** how often [c] is differentiated according to a list of couples *)
Fixpoint order_in (c : string) (l : list (string * Z)) : Z :=
  match l with
  | [] => 0%Z
  | (d, z) :: r => ((if string_dec c d then z else 0) + order_in c r)%Z
  end.

(** the meaning of a description of partial orders: the order of each coordinate.
    A tuple of one integer per coordinate, one couple, a list or tuple of couples, or a
    list or tuple of coordinates with repetition. *)
Inductive describes (coords : list string) : pyv -> list Z -> Prop :=
| d_tuple zs : List.length zs = List.length coords -> describes coords (VTuple (map VInt zs)) zs
| d_couple c z : In c coords ->
    describes coords (VTuple [VCoord c; VInt z]) (map (fun d => order_in d [(c, z)]) coords)
| d_couples (l : list (pyv * (string * Z))) :
    (forall v c z, In (v, (c, z)) l -> In c coords /\ (v = VTuple [VCoord c; VInt z] \/ v = VList [VCoord c; VInt z])) ->
    l <> [] ->
    describes coords (VList (map fst l)) (map (fun d => order_in d (map snd l)) coords)
| d_sequence cs v : (v = VTuple (map VCoord cs) \/ v = VList (map VCoord cs)) ->
    (forall c, In c cs -> In c coords) ->
    describes coords v (map (fun d => order_in d (map (fun c => (c, 1%Z)) cs)) coords).

(** the multi-indices of a degree *)
Definition multi_index (n : nat) (degree : Z) (o : list Z) : Prop :=
  List.length o = n /\ (forall z, In z o -> (0 <= z)%Z) /\ fold_right Z.add 0%Z o = degree.
