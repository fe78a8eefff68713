(** Partial orders of derivatives: /repo/src/sympkf/symbolic/pkfcas.py 1019-1189, the class
    [PartialOrderDerivative].

    Simplifications: coordinates are names compared by equality (they are sympy symbols);
    an input is a Python value built from integers, coordinates, tuples and lists
    (a string, a float, a bool or another sympy object is not modelled); numpy's integer
    arrays in [all_of_degree] are lists of unbounded integers. *)
From Coq Require Import List Arith ZArith Bool String.
From Verif Require Import PyBase.
Import ListNotations.
Open Scope list_scope.

(** an argument of the constructor *)
Inductive pyv := VInt (z : Z) | VCoord (c : string) | VTuple (l : list pyv) | VList (l : list pyv).

(** the object: pkfcas.py 1022-1025 ([_degree] is [sum] of the tuple) *)
Record pod := mkPod { p_coords : list string; p_tuple : list Z }.
(** pkfcas.py 1025 *)
Definition p_degree (p : pod) : Z := fold_right Z.add 0%Z (p_tuple p).

(** [isinstance(v, int)] and [v in self._coordinates] *)
Definition is_int (v : pyv) : bool := match v with VInt _ => true | _ => false end.
(** [xi in self._coordinates], pkfcas.py 1080, 1083, 1091 *)
Definition in_coords (coords : list string) (v : pyv) : bool :=
  match v with VCoord c => lmem string_dec c coords | _ => false end.

(** [a, b = v]; [None] is any exception, all caught at 1085 *)
Definition unpack2 (v : pyv) : option (pyv * pyv) :=
  match v with
  | VTuple [a; b] | VList [a; b] => Some (a, b)
  | _ => None
  end.

(** pkfcas.py 1060-1069; [len] of an integer or a symbol is a TypeError *)
Definition is_as_tuple (coords : list string) (v : pyv) : res bool :=
  match v with
  | VInt _ | VCoord _ => Err TypeError
  | VTuple l => Ok (Nat.eqb (List.length l) (List.length coords) && forallb is_int l)
  | VList _ => Ok false
  end.

(** pkfcas.py 1080, 1083: one couple *)
Definition couple_ok (coords : list string) (v : pyv) : option bool :=
  match unpack2 v with
  | None => None
  | Some (a, b) => Some (in_coords coords a && is_int b)
  end.

(** pkfcas.py 1071-1086: an element that cannot be unpacked makes the whole test False *)
Fixpoint couples_tests (coords : list string) (l : list pyv) : option (list bool) :=
  match l with
  | [] => Some []
  | v :: r =>
      match couple_ok coords v, couples_tests coords r with
      | Some b, Some bs => Some (b :: bs)
      | _, _ => None
      end
  end.
(** pkfcas.py 1071-1086 *)
Definition is_as_couples (coords : list string) (v : pyv) : bool :=
  match v with
  | VList [] => false
  | VTuple l => match couple_ok coords v with Some b => b | None => false end
  | VList l => match couples_tests coords l with Some bs => forallb (fun b => b) bs | None => false end
  | _ => false
  end.

(** pkfcas.py 1088-1092; iterating over an integer or a symbol is a TypeError *)
Definition is_as_sequence (coords : list string) (v : pyv) : res bool :=
  match v with
  | VTuple l | VList l => Ok (forallb (in_coords coords) l)
  | _ => Err TypeError
  end.

(** [coordinates.index(xi)] *)
Fixpoint cindex (c : string) (l : list string) : res nat :=
  match l with
  | [] => Err ValueError
  | d :: r => if string_dec c d then Ok 0 else i <- cindex c r ;; Ok (S i)
  end.

(** pkfcas.py 1094-1095 *)
Definition ints_of (l : list pyv) : list Z :=
  map (fun v => match v with VInt z => z | _ => 0%Z end) l.

(** [orders[coordinates.index(xi)] += alpha_i] *)
Definition add_couple (coords : list string) (orders : list Z) (v : pyv) : res (list Z) :=
  match unpack2 v with
  | Some (VCoord c, VInt z) =>
      i <- cindex c coords ;;
      Ok (set_nth i (nth i orders 0 + z)%Z orders)
  | Some _ => Err TypeError
  | None => Err ValueError
  end.

(** pkfcas.py 1097-1107 *)
Definition set_from_couples (coords : list string) (v : pyv) : res (list Z) :=
  let orders := repeat 0%Z (List.length coords) in
  match v with
  | VTuple _ => add_couple coords orders v
  | VList l => foldM (add_couple coords) orders l
  | _ => Err TypeError
  end.

(** pkfcas.py 1109-1110; [sequence.count(xi)] *)
Definition count_in (l : list pyv) (c : string) : Z :=
  Z.of_nat (List.length (filter (fun v => match v with VCoord d => if string_dec c d then true else false
                                             | _ => false end) l)).
(** pkfcas.py 1109-1110 *)
Definition set_from_sequence (coords : list string) (l : list pyv) : list Z :=
  map (count_in l) coords.

(** pkfcas.py 1048-1058: the three tests are all evaluated, the first successful one in
    the order tuple, couples, sequence chooses the conversion *)
Definition pod_init (coords : list string) (v : pyv) : res pod :=
  t1 <- is_as_tuple coords v ;;
  let t2 := is_as_couples coords v in
  t3 <- is_as_sequence coords v ;;
  let items := match v with VTuple l | VList l => l | _ => [] end in
  if t1 then Ok (mkPod coords (ints_of items))
  else if t2 then o <- set_from_couples coords v ;; Ok (mkPod coords o)
  else if t3 then Ok (mkPod coords (set_from_sequence coords items))
  else Err TypeError.

(** pkfcas.py 1035-1037 *)
Definition as_couples (p : pod) : list (string * Z) := combine (p_coords p) (p_tuple p).
(** pkfcas.py 1039-1046 *)
Definition as_sequence (p : pod) : list string :=
  List.concat (map (fun ca => if (0 <? snd ca)%Z then repeat (fst ca) (Z.to_nat (snd ca)) else []) (as_couples p)).

(** the three representations as Python values *)
Definition tuple_value (p : pod) : pyv := VTuple (map VInt (p_tuple p)).
(** as_couples (pkfcas.py 1035-1037) as a Python value *)
Definition couples_value (p : pod) : pyv :=
  VList (map (fun ca => VTuple [VCoord (fst ca); VInt (snd ca)]) (as_couples p)).
(** as_sequence (pkfcas.py 1039-1046) as a Python value *)
Definition sequence_value (p : pod) : pyv := VList (map VCoord (as_sequence p)).

(** pkfcas.py 1115-1116 *)
Definition pod_new (p : pod) (v : pyv) : res pod := pod_init (p_coords p) v.
(** pkfcas.py 1112-1113 *)
Definition pod_eqb (p q : pod) : bool :=
  (if list_eq_dec Z.eq_dec (p_tuple p) (p_tuple q) then true else false)
  && (if list_eq_dec string_dec (p_coords p) (p_coords q) then true else false).

(** ** all_of_degree, pkfcas.py 1121-1189 *)
Definition ztuple_dec : forall a b : list Z, {a = b} + {a <> b} := list_eq_dec Z.eq_dec.

(** [father + flux] where [flux] is -1 at 0 and +1 at [move] *)
Definition son_of (father : list Z) (move : nat) : list Z :=
  let f0 := set_nth 0 (nth 0 father 0 - 1)%Z father in
  set_nth move (nth move f0 0 + 1)%Z f0.

(** [sons.add(tuple(son))] *)
Definition set_add (x : list Z) (s : list (list Z)) : list (list Z) :=
  if in_dec ztuple_dec x s then s else s ++ [x].

(** 1178-1189 *)
Definition next_generation (nb : nat) (fathers : list (list Z)) : list (list Z) :=
  fold_left (fun sons father =>
      fold_left (fun sons move => set_add (son_of father move) sons) (seq 1 (nb - 1)) sons)
    fathers [].

(** the loop 1165-1189.  A Python set is iterated in an order fixed by its implementation:
    [enum] is that order, an arbitrary rearrangement.  The loop has no bound of its own;
    [fuel] exhausted is a value ([RuntimeError]) that the proofs exclude. *)
Fixpoint generations (enum : list (list Z) -> list (list Z)) (coords : list string) (order : Z)
    (fuel : nat) (generation : Z) (fathers : list (list Z)) : res (list pod) :=
  match fuel with
  | O => Err RuntimeError
  | S fuel =>
      if (order <? generation)%Z then Ok []
      else
        let fathers := enum fathers in
        here <- mapM (fun o => pod_init coords (VTuple (map VInt o))) fathers ;;
        rest <- generations enum coords order fuel (generation + 1)%Z
                  (next_generation (List.length coords) fathers) ;;
        Ok (here ++ rest)
  end.

(** 1157-1163: [start[0] = derivative_order] on an empty array is an IndexError, raised
    when the generator is first advanced *)
Definition all_of_degree (enum : list (list Z) -> list (list Z)) (coords : list string) (order : Z)
  : res (list pod) :=
  match coords with
  | [] => Err IndexError
  | _ :: r => generations enum coords order (S (S (Z.to_nat order))) 0%Z
                [order :: repeat 0%Z (List.length r)]
  end.
