(** C10-C17: properties of the time schemes. *)
From Coq Require Import List Arith String Lia QArith Qcanon.
From Verif Require Import PyBase Scalars ForecastModel SchemesModel SchemesSpec SchemesProofs
  ModelProofs.
Import ListNotations.
Open Scope py_scope.

Section Props.
  Variable K : Fld.
  Open Scope fld_scope.

  (** C10: one step on linear dynamics is the truncated exponential *)
  Theorem C10_linear_step_is_truncated_exp {I} s (A : arr K I -> arr K I) t u dt :
    linear A ->
    onestep_fun s (pure (fun _ v => A v)) t u dt = Ok (exp_taylor A dt (onestep_order s) u).
  Proof. apply step_linear_exp. Qed.

  (** C11: exact quadrature of polynomial forcing *)
  Theorem C11_forcing_exact {I} s (c : I -> list K) t u dt :
    (forall i, List.length (c i) <= onestep_order s)%nat ->
    onestep_fun s (pure (fun t _ i => peval (c i) t)) t u dt =
    Ok (fun i => u i + (peval (pint (c i)) (t + dt) - peval (pint (c i)) t)).
  Proof. apply step_forcing_exact. Qed.

  (** C12: linear invariants over whole forecasts *)
  Theorem C12_linear_invariants {I} (keq : forall a b : K, {a = b} + {a <> b}) s
    (phi : arr K I -> K) (f : K -> arr K I -> arr K I) w u0 sv traj :
    (forall a b, phi (vadd a b) = phi a + phi b) ->
    (forall c a, phi (vscale c a) = c * phi a) ->
    (forall t u, phi (f t u) = 0) ->
    forecast keq fsub (onestep_fun s) (pure f) w u0 sv = Ok traj ->
    forall t u, dget keq t traj = Some u -> phi u = phi u0.
  Proof. apply forecast_invariant. Qed.

  (** C13: linear changes of variables, one step and whole forecasts *)
  Theorem C13_step_intertwines {I J} s (P : arr K I -> arr K J) (f : @trendT K I) (g : @trendT K J) :
    linear P -> (forall t u, g t (P u) = (v <- f t u ;; Ok (P v))) ->
    forall t u dt, onestep_fun s g t (P u) dt = (v <- onestep_fun s f t u dt ;; Ok (P v)).
  Proof. apply step_natural. Qed.

  Theorem C13_forecast_intertwines {I J} (keq : forall a b : K, {a = b} + {a <> b}) s
    (P : arr K I -> arr K J) (f : @trendT K I) (g : @trendT K J) :
    linear P -> (forall t u, g t (P u) = (v <- f t u ;; Ok (P v))) ->
    forall w u0 sv,
      forecast keq fsub (onestep_fun s) g w (P u0) sv =
      (d <- forecast keq fsub (onestep_fun s) f w u0 sv ;;
       Ok (map (fun p => (fst p, P (snd p))) d)).
  Proof. apply forecast_natural. Qed.

  (** C14: leapfrog *)
  Theorem C14_leapfrog_step {I} (f : @trendT K I) t u0 u1 dt out :
    leapfrog f t [u0; u1] dt = Ok out ->
    exists k, f t u1 = Ok k /\ out = [u1; vadd u0 (vscale (fnat 2 * dt) k)].
  Proof. apply leapfrog_Ok. Qed.
  Theorem C14_leapfrog_reversible {I} (f : @trendT K I) t u0 u1 u2 dt :
    leapfrog f t [u0; u1] dt = Ok [u1; u2] -> leapfrog f t [u2; u1] (- dt) = Ok [u1; u0].
  Proof. apply leapfrog_reversible. Qed.
  Theorem C14_leapfrog_two_states {I} (f : @trendT K I) t us dt :
    List.length us <> 2%nat -> leapfrog f t us dt = Err ValueError.
  Proof. apply leapfrog_ValueError. Qed.

  (** C17: the identity model *)
  Theorem C17_identity_forecast {I} (keq : forall a b : K, {a = b} + {a <> b}) s (u0 : arr K I) w sv :
    w <> [] -> sv <> SOther ->
    exists traj, forecast keq fsub (onestep_fun s) identity_trend w u0 sv = Ok traj
      /\ forall t u, dget keq t traj = Some u -> u = u0.
  Proof.
    intros Hw Hs. destruct (identity_forecast_total K keq s u0 w sv Hw Hs) as [d Hd].
    exists d. split; auto. eapply identity_forecast; eauto.
  Qed.
  Theorem C17_identity_leapfrog {I} t (u0 u1 : arr K I) dt :
    leapfrog identity_trend t [u0; u1] dt = Ok [u1; u0].
  Proof. apply identity_leapfrog. Qed.
End Props.

(** C11: the degrees are sharp *)
Theorem C11_forcing_not_beyond_refuted : forall s,
  exists (c : list QcF) t u dt, List.length c = S (onestep_order s)
    /\ onestep_fun (I := unit) s (pure (fun t _ _ => peval c t)) t u dt
       <> Ok (fun i => fadd (u i) (fsub (peval (pint c) (fadd t dt)) (peval (pint c) t))).
Proof. exact forcing_not_beyond. Qed.

(** C15: splitting *)
Section Split.
  Context {T S D TR : Type}.
  Theorem C15_splitting_sequential (steps1 steps2 : list (fstep T S D TR)) t u dt :
    time_splitting (steps1 ++ steps2) t u dt =
    (v <- time_splitting steps1 t u dt ;; time_splitting steps2 t v dt).
  Proof. apply splitting_app. Qed.
  Theorem C15_splitting_trend_step (tr : TR) (sch : TR -> T -> S -> D -> res S) t u dt :
    time_splitting [mkStep None (Some tr) (Some sch)] t u dt = sch tr t u dt.
  Proof. apply splitting_single_scheme. Qed.
  Theorem C15_splitting_update_first upd (tr : option TR) sch (t : T) (u : S) (dt : D) :
    time_splitting [mkStep (Some upd) tr sch] t u dt = upd t u dt.
  Proof. apply splitting_single_update. Qed.
  Theorem C15_splitting_KeyError (tr : option TR) (sch : option (TR -> T -> S -> D -> res S)) t u dt rest :
    tr = None \/ sch = None ->
    time_splitting (mkStep None tr sch :: rest) t u dt = Err KeyError.
  Proof. apply splitting_KeyError. Qed.
  Theorem C15_splitting_empty t u dt : time_splitting ([] : list (fstep T S D TR)) t u dt = Ok u.
  Proof. apply splitting_nil. Qed.
End Split.

(** C16: scheme selection *)
Theorem C16_set_history init hist :
  exists s, fold_left (fun a n => fst (set_time_scheme a n)) hist (Some init) = Some s
    /\ active_after init hist s.
Proof. apply set_history. Qed.
Theorem C16_active_scheme_unique init hist s s' :
  active_after init hist s -> active_after init hist s' -> s = s'.
Proof. apply active_after_fun. Qed.
Theorem C16_set_result a n :
  (forall s, names n s -> set_time_scheme a n = (Some s, Ok tt))
  /\ ((forall s, ~ names n s) -> set_time_scheme a n = (a, Err ValueError)).
Proof. apply set_result. Qed.
Theorem C16_constructor n :
  (forall s, names n s -> model_init n = Ok s)
  /\ ((forall s, ~ names n s) -> model_init n = Err ValueError).
Proof. apply init_result. Qed.

(** ** concrete cases *)
Section Examples.
  Open Scope string_scope.
  Let q (z : Z) : QcF := qc z 1.
  (** rotation u' = (-v, u) *)
  Let rot : arr QcF bool -> arr QcF bool := fun u i => if i then fopp (u false) else u true.
  Example ex_C10_linear : linear rot.
  Proof. split; intros; apply FunctionalExtensionality.functional_extensionality; intros [];
    unfold rot, vadd, vscale; simpl; ring. Qed.
  Example ex_C10 :
    match rk4 (pure (fun _ v => rot v)) (q 0) (fun i => if i then q 1 else q 0) (q 1) with
    | Ok v => (v true, v false) = (qc 13 24, qc 5 6) | Err _ => False end.
  Proof. vm_compute. split; reflexivity. Qed.
  Example ex_C11 : (* forcing t^3 from 1 to 3: 20 *)
    match rk4 (I := unit) (pure (fun t _ _ => peval [q 0; q 0; q 0; q 1] t)) (q 1)
            (fun _ => q 5) (q 2) with
    | Ok v => v tt = q 25 | Err _ => False end.
  Proof. vm_compute. reflexivity. Qed.
  (** total mass is conserved by the antisymmetric exchange u' = (v^2 - u, u - v^2) *)
  Let ex_tr : QcF -> arr QcF bool -> arr QcF bool := fun t u i =>
    let x := fsub (fmul (u false) (u false)) (u true) in if i then x else fopp x.
  Example ex_C12 :
    match forecast qeq fsub (onestep_fun SRk2) (pure ex_tr) [q 0; q 1] (fun i => if i then q 1 else q 3) SNone with
    | Ok d => match dget qeq (q 1) d with
              | Some u => fadd (u true) (u false) = q 4 /\ u true <> q 1
              | None => False end
    | Err _ => False end.
  Proof. vm_compute. split; [reflexivity|discriminate]. Qed.
  Example ex_C13 : linear (fun (u : arr QcF bool) (_ : unit) => fadd (u true) (u false)).
  Proof. split; intros; apply FunctionalExtensionality.functional_extensionality; intros [];
    unfold vadd, vscale; simpl; ring. Qed.
  Example ex_C14 :
    match leapfrog (I := unit) (fun t u => Ok (fun i => fmul (u i) (u i))) (q 0)
            [(fun _ => q 1); (fun _ => q 2)] (q 1) with
    | Ok [a; b] => (a tt, b tt) = (q 2, q 9) | _ => False end.
  Proof. vm_compute. reflexivity. Qed.
  Example ex_C15 :
    time_splitting [mkStep None (Some 2%nat) (Some (fun tr (t : nat) s d => Ok (s + tr * d)%nat));
                    mkStep (Some (fun t s d => Ok (s * s)%nat)) (Some 5%nat) None] 0%nat 1%nat 3%nat
    = Ok 49%nat.
  Proof. reflexivity. Qed.
  Example ex_C16 :
    fold_left (fun a n => fst (set_time_scheme a n)) ["euler"; "rk5"; "rk2"; ""] (Some Rk4) = Some Rk2.
  Proof. reflexivity. Qed.
  (** leapfrog of the identity model is not stationary when the states differ *)
  Theorem C17_leapfrog_not_stationary_refuted :
    exists (u0 u1 : arr QcF unit) t dt,
      leapfrog identity_trend t [u0; u1] dt <> Ok [u0; u1].
  Proof.
    exists (fun _ => q 0), (fun _ => q 1), (q 0), (q 1). rewrite identity_leapfrog.
    intros H. inversion H as [H1]. apply (f_equal (fun f => f tt)) in H1. discriminate.
  Qed.
End Examples.

Print Assumptions C10_linear_step_is_truncated_exp.
Print Assumptions C11_forcing_exact.
Print Assumptions C11_forcing_not_beyond_refuted.
Print Assumptions C12_linear_invariants.
Print Assumptions C13_step_intertwines.
Print Assumptions C13_forecast_intertwines.
Print Assumptions C14_leapfrog_step.
Print Assumptions C14_leapfrog_reversible.
Print Assumptions C14_leapfrog_two_states.
Print Assumptions C15_splitting_sequential.
Print Assumptions C15_splitting_trend_step.
Print Assumptions C15_splitting_update_first.
Print Assumptions C15_splitting_KeyError.
Print Assumptions C15_splitting_empty.
Print Assumptions C16_set_history.
Print Assumptions C16_active_scheme_unique.
Print Assumptions C16_set_result.
Print Assumptions C16_constructor.
Print Assumptions C17_identity_forecast.
Print Assumptions C17_identity_leapfrog.
Print Assumptions C17_leapfrog_not_stationary_refuted.
