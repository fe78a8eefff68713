(** Model of SymbolicPKF.std_system, /repo/src/sympkf/symbolic/pkfcas.py 301-335. *)
From Coq Require Import List Arith ZArith QArith Bool String.
From Verif Require Import PyBase PartialOrderModel TreeModel PKFModel.
Import ListNotations.
Close Scope Q_scope.
Open Scope nat_scope.
Open Scope string_scope.
Open Scope list_scope.
Open Scope py_scope.

(** std and its derivatives.  The function std is positive (941), so that sqrt(std**2) is std:
    [ASig i] stands for std once the variance is replaced by its square, [AIsig i] for 1/std. *)
Definition sjet (i : nat) (w : word) : poly := match w with [] => patom (ASig i) | _ => pjet (FStd i) w end.
(** the derivatives [w] of the product of the derivatives [a] and [b] of std *)
Fixpoint leibniz (i : nat) (w a b : word) : poly :=
  match w with
  | [] => pmul (sjet i a) (sjet i b)
  | c :: r => padd (leibniz i r (winsert c a) b) (leibniz i r a (winsert c b))
  end.
(** subs(subs_variance).doit(), 316-324: V and its derivatives become those of std**2 *)
Definition std_atom (a : atom) : poly :=
  match a with AJet (FVar i) w => leibniz i w [] [] | _ => patom a end.
(** pkfcas.py 316-319, 324 *)
Definition std_subs (p : poly) : poly := psum (map (fun t => pscale (fst t) (pprod (map std_atom (snd t)))) p).

(** equation.args[0].atoms(Derivative), 326 *)
Definition is_derivative (a : atom) : bool :=
  match a with AJet _ (_ :: _) | AExp (_ :: _) _ => true | _ => false end.
(** pkfcas.py 326 *)
Definition derivative_atoms (p : poly) : list atom := nodup atom_eq_dec (filter is_derivative (flat_map snd p)).

(** Eq.isolate (util.py 145-156) on an equation whose left-hand side is a multiple of std*trend:
    solve divides.  Simplification: for any other equation, [NotImplementedError] stands for
    whatever solve does. *)
Definition isolate (trend : atom) (q : pequation) : res pequation :=
  match fst q with
  | [(c, m)] =>
      match remove_atom trend m with
      | Some [ASig i] =>
          if lmem atom_eq_dec trend (flat_map snd (snd q)) then Err NotImplementedError
          else Ok (patom trend, pmulm (Qred (/ c)) [AIsig i] (snd q))
      | _ => Err NotImplementedError
      end
  | _ => Err NotImplementedError
  end.

Section Std.
  Variables (enum : list mi -> list mi) (enumD : tdict -> tdict) (enumC : edict -> edict)
    (enumF : list (fn * poly) -> list (fn * poly)) (enumU : list fn -> list fn) (enumA : list atom -> list atom).
  Variables (coords : list string) (eqs : list poly).
  (** 322-331.  [trend.args[1]] is the tuple (t, 1) and never equal to [time_symbol]: the loop is
      not left and [trend] is the last derivative of the set; with none the name is not bound. *)
  Definition std_equation (q : pequation) : res pequation :=
    let q := (std_subs (fst q), std_subs (snd q)) in
    match last_opt (enumA (derivative_atoms (fst q))) with
    | None => Err NameError
    | Some trend => isolate trend q
    end.
  (** pkfcas.py 301-335 *)
  Definition std_system : res (list pequation) :=
    v <- variance_system enum enumD enumC enumF enumU coords eqs ;; mapM std_equation v.
End Std.
