(** C18, C19: window() and randstate(). *)
From Coq Require Import List Arith QArith Qcanon Qabs ZArith.
From Verif Require Import PyBase Scalars ForecastModel WindowModel WindowSpec WindowProofs.
Import ListNotations.

(** C18: exactly n+1 evenly spaced points from start when end is within dt/3 of start+n*dt
    (dt may be negative) *)
Theorem C18_window_points dt endt start n :
  dt <> 0%Qc ->
  (Qabs ((this endt - this start) / this dt - inject_Z (Z.of_nat n)) < 1 # 3)%Q ->
  window dt endt start =
  Ok (map (fun i => start + Q2Qc (inject_Z (Z.of_nat i)) * dt)%Qc (seq 0 (S n))).
Proof. apply window_points. Qed.

(** C18: every window starts at start and has spacing dt *)
Theorem C18_window_spacing dt endt start w :
  window dt endt start = Ok w ->
  exists n, w = map (fun i => start + Q2Qc (inject_Z (Z.of_nat i)) * dt)%Qc (seq 0 n).
Proof.
  intros H. destruct (Qc_eq_dec dt 0) as [->|Hd].
  - rewrite window_zero in H. discriminate.
  - rewrite window_eq in H by auto. inversion H. eauto.
Qed.

Theorem C18_window_last dt endt start w t :
  (0 < this dt)%Q -> window dt endt start = Ok w -> last_opt w = Some t ->
  (this endt - (2#3) * this dt <= this t < this endt + (1#3) * this dt)%Q.
Proof. apply window_last. Qed.

Theorem C18_window_empty dt endt start :
  dt <> 0%Qc -> ((this endt - this start) / this dt <= -(1#3))%Q -> window dt endt start = Ok [].
Proof. apply window_empty. Qed.

Theorem C18_window_zero_dt endt start : window 0 endt start = Err ZeroDivisionError.
Proof. apply window_zero. Qed.

(** C19 *)
Section Rand.
  Context {K : Fld} {S TR : Type}.
  Variable teq : forall a b : K, {a = b} + {a <> b}.
  Variable scheme : TR -> K -> S -> K -> res S.
  Variable trend : TR.
  Theorem C19_randstate_steps n (dt : K) xo :
    randstate teq scheme trend (Datatypes.S n) dt xo = run scheme trend dt xo n.
  Proof. apply randstate_run. Qed.
  Theorem C19_randstate_0 (dt : K) xo : randstate teq scheme trend 0 dt xo = Err IndexError.
  Proof. apply randstate_0. Qed.
End Rand.

Section Examples.
  Let q (z : Z) (p : positive) : Qc := Q2Qc (z # p).
  (** end = 1.02 with dt = 1/10: still 11 points *)
  Example ex_C18 : match window (q 1 10) (q 102 100) (q 0 1) with
    | Ok w => length w = 11%nat /\ last_opt w = Some (q 1 1) | Err _ => False end.
  Proof. vm_compute. split; reflexivity. Qed.
  Example ex_C18_hyp :
    (Qabs ((this (q 102 100) - this (q 0 1)) / this (q 1 10) - inject_Z (Z.of_nat 10)) < 1 # 3)%Q.
  Proof. vm_compute. reflexivity. Qed.
  (** nstart = 4, u <- u + t*dt: three steps from 7 *)
  Example ex_C19 : randstate (K := QcF) Qc_eq_dec (fun (_ : unit) t u d => Ok (u + t * d)%Qc) tt 4
     (q 2 1) (q 7 1) = Ok (q 19 1).
  Proof. vm_compute. reflexivity. Qed.
End Examples.

Print Assumptions C18_window_points.
Print Assumptions C18_window_spacing.
Print Assumptions C18_window_last.
Print Assumptions C18_window_empty.
Print Assumptions C18_window_zero_dt.
Print Assumptions C19_randstate_steps.
Print Assumptions C19_randstate_0.
