(** Specification vocabulary for [randstate]. *)
From Coq Require Import List.
From Verif Require Import PyBase Scalars.

Section S.
  Context {K : Fld} {S TR : Type}.
  Variable scheme : TR -> K -> S -> K -> res S.
  Variable trend : TR.
  (** [run dt u0 k]: [k] consecutive scheme steps of length [dt] from time 0; the
      i-th one (from 0) is evaluated at time i*dt.  The first exception stops it. *)
  Fixpoint run (dt : K) (u0 : S) (k : nat) : res S :=
    match k with
    | O => Ok u0
    | Datatypes.S j => bind (run dt u0 j) (fun u => scheme trend (fmul (fnat j) dt) u dt)
    end.
End S.
