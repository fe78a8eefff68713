(** The class Closure: /repo/src/sympkf/symbolic/pkfcas.py 1273-1448.

    The correlation function rho(x, x + dx) is given by its Taylor coefficients in dx:
    [coef alpha] is the coefficient of dx^alpha, an expression of the tensors at x.  [E] is the type
    of these expressions, [ezero] the null one, [mulZ n e] is Integer(n)*e, [erase] replaces every
    derivative by 0 (1424), [solve] is sympy.solve on the equations -g = value with the unknowns s
    followed by the substitution of its answer (1435-1440).  All are arbitrary: sympy's series, solve and
    subs are not modelled further.  The term E[eps D^alpha eps] is represented by alpha.
    Sets are iterated in the order [enum], as in PartialOrderModel.v. *)
From Coq Require Import List Arith ZArith Bool String.
From Verif Require Import PyBase PartialOrderModel NameModel.
Import ListNotations.
Open Scope list_scope.
Open Scope Z_scope.

Section Closure.
  Variable enum : list (list Z) -> list (list Z).
  Variable E : Type.
  Variable ezero : E.
  Variable mulZ : Z -> E -> E.
  Variable erase : E -> E.
  Variable solve : list (func * func * E) -> E -> E.
  Variable mfield : func.
  Variable coef : list Z -> E.

  (** pkfcas.py 1290: the spatial coordinates of the field *)
  Definition coords : list string := spatial_coordinates mfield.
  (** pkfcas.py 1381, 1395: the dictionary of the terms of one order, by multi-index *)
  Definition terms := list (list Z * E).
  (** pkfcas.py 1306, 1396: the dictionary [_closure_by_order] *)
  Definition orders := list (Z * terms).

  (** 1301-1306: the attributes; _taylor is kept as the order of the expansion *)
  Record state := mkState { c_order : Z; c_taylor : option Z; c_by_order : orders }.
  (** symbols('') raises ValueError, 1293 *)
  Definition init : res state :=
    match coords with [] => Err ValueError | _ => Ok (mkState 0 None []) end.

  (** 1353-1366: series(dxi, 0, order).removeO() along each dxi keeps the powers lower than order *)
  Definition taylor (order : Z) (s : state) : option Z * state :=
    if c_order s <? order then (Some order, mkState order (Some order) (c_by_order s))
    else (c_taylor s, s).
  (** 1388-1391: the coefficient of dx^alpha in an expansion; None.expand() is an AttributeError *)
  Definition coefficient (t : option Z) (alpha : list Z) : res E :=
    match t with
    | None => Err AttributeError
    | Some n => Ok (if forallb (fun a => a <? n) alpha then coef alpha else ezero)
    end.

  (** 1378-1396: one turn of the loop on partial_order; [fs] is the value of factorial and the state *)
  Definition fill (order : Z) (alphas : list pod) (factorial : Z) (s : state) : res terms * state :=
    fold_left (fun (rs : res terms * state) alpha =>
                 match rs with
                 | (Err e, s) => (Err e, s)
                 | (Ok d, s) => let (t, s') := taylor order s in
                     match coefficient t (p_tuple alpha) with
                     | Err e => (Err e, s')
                     | Ok c => (Ok (dset ztuple_dec (p_tuple alpha) (mulZ factorial c) d), s')
                     end
                 end) alphas (Ok [], s).
  (** pkfcas.py 1378-1396: the body of the loop *)
  Definition turn (order : Z) (fs : res Z * state) (partial_order : Z) : res Z * state :=
    match fs with
    | (Err e, s) => (Err e, s)
    | (Ok factorial, s) =>
        let factorial := if partial_order =? 0 then factorial else factorial * partial_order in
        match all_of_degree enum coords partial_order with
        | Err e => (Err e, s)
        | Ok alphas =>
            match fill order alphas factorial s with
            | (Err e, s) => (Err e, s)
            | (Ok d, s) => (Ok factorial, mkState (c_order s) (c_taylor s) (dset Z.eq_dec partial_order d (c_by_order s)))
            end
        end
    end.
  (** Python [range(n)], pkfcas.py 1378 *)
  Definition range (n : Z) : list Z := map Z.of_nat (seq 0 (Z.to_nat n)).
  (** 1368-1401 *)
  Definition closure_by_order (order : Z) (s : state) : res orders * state :=
    let order := order + 1 in
    if c_order s <? order then
      match fold_left (turn order) (range order) (Ok 1, s) with
      | (Err e, s) => (Err e, s)
      | (Ok _, s) => (Ok (c_by_order s), mkState order (c_taylor s) (c_by_order s))
      end
    else (Ok (c_by_order s), s).

  (** 1403-1408 *)
  Definition update (d e : terms) : terms := fold_left (fun d kv => dset ztuple_dec (fst kv) (snd kv) d) e d.
  (** pkfcas.py 1403-1408 *)
  Definition closure (order : Z) (s : state) : res terms * state :=
    match closure_by_order order s with
    | (Err e, s) => (Err e, s)
    | (Ok o, s) => (Ok (fold_left update (map snd o) []), s)
    end.

  (** 1417-1432: the value is overwritten before the indices are used *)
  Definition metric_indices (alpha : list Z) : nat * nat :=
    if (1 <? Z.of_nat (List.length coords)) then (Z.to_nat (nth 0 alpha 0), Z.to_nat (nth 1 alpha 0)) else (0, 0)%nat.
  (** pkfcas.py 1417-1432: one multi-index of the loop of in_metric_by_order *)
  Definition metric_turn (rs : res (list (func * func * E)) * state) (alpha : pod) : res (list (func * func * E)) * state :=
    match rs with
    | (Err e, s) => (Err e, s)
    | (Ok eqs, s) =>
        match (d <- dgetE Z.eq_dec 2 (c_by_order s) ;; v <- dgetE ztuple_dec (p_tuple alpha) d ;; Ok (d, erase v)) with
        | Err e => (Err e, s)
        | Ok (d, v) =>
            let s := mkState (c_order s) (c_taylor s) (dset Z.eq_dec 2 (dset ztuple_dec (p_tuple alpha) v d) (c_by_order s)) in
            let (i, j) := metric_indices (p_tuple alpha) in
            match (g <- metric_func mfield i j ;; a <- aspect_func mfield i j ;; Ok (g, a, v)) with
            | Err e => (Err e, s)
            | Ok q => (Ok (eqs ++ [q]), s)
            end
        end
    end.
  (** 1410-1442 *)
  Definition in_metric_by_order (order : Z) (s : state) : res orders * state :=
    match closure_by_order order s with
    | (Err e, s) => (Err e, s)
    | (Ok _, s) =>
        match all_of_degree enum coords 2 with
        | Err e => (Err e, s)
        | Ok alphas =>
            match fold_left metric_turn alphas (Ok [], s) with
            | (Err e, s) => (Err e, s)
            | (Ok eqs, s) =>
                let o := map (fun kd => (fst kd, map (fun kv => (fst kv, solve eqs (snd kv))) (snd kd))) (c_by_order s) in
                (Ok o, mkState (c_order s) (c_taylor s) o)
            end
        end
    end.

  (** calls on one object *)
  Inductive call := CTaylor (order : Z) | CClosure (order : Z) | CMetric (order : Z).
  (** the object after one call of taylor (pkfcas.py 1353-1366), closure (1403-1408) or in_metric_by_order (1410-1442) *)
  Definition after (s : state) (x : call) : state :=
    match x with
    | CTaylor n => snd (taylor n s)
    | CClosure n => snd (closure n s)
    | CMetric n => snd (in_metric_by_order n s)
    end.
  (** the object after several calls, as [after] (pkfcas.py 1353-1442) *)
  Definition run (h : list call) (s : state) : state := fold_left after h s.
End Closure.
