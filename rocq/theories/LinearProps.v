(** C08, C09, C78: tangent-linear forecasts and the propagator matrix. *)
From Coq Require Import List Arith Lia Permutation QArith Qcanon FunctionalExtensionality.
From Verif Require Import PyBase PyBaseFacts Scalars ForecastModel ForecastSpec ForecastProofs
  EnsembleProofs SchemesModel SchemesSpec SchemesProofs ModelProofs LinearMore.
Import ListNotations.
Open Scope py_scope.

Section Props.
  Variable K : Fld.
  Open Scope fld_scope.
  Variable keq : forall a b : K, {a = b} + {a <> b}.
  Notation fcast s f := (forecast keq fsub (onestep_fun s) f).

  (** C08: for an affine trend f = f(0) + L, forecast_tl returns the perturbations
      propagated by L, whatever h <> 0, whatever the pool does *)
  Theorem C08_forecast_tl_affine {I} s (f L : K -> arr K I -> arr K I) h ens w state perts sv l :
    (forall t u c p, f t (vadd u (vscale c p)) = vadd (f t u) (vscale c (L t p))) ->
    h <> 0 ->
    pool_ens keq fsub (onestep_fun s) (pure f) ens ->
    w <> [] -> saved_list w sv = Some l -> NoDup l ->
    exists fc tl,
      forecast_tl keq fsub (onestep_fun s) (pure f)
        (fun st p => vadd st (vscale h p)) (fun a b => vdiv (vsub a b) h) ens w state perts sv
        = Ok (fc, tl)
      /\ fcast s (pure f) w state sv = Ok fc
      /\ dkeys tl = l
      /\ (forall t, In t l -> In t w ->
            exists vs, dget keq t tl = Some vs
              /\ Forall2 (fun p v => exists d, fcast s (pure L) w p sv = Ok d
                                               /\ dget keq t d = Some v) perts vs)
      /\ (forall t, In t l -> ~ In t w -> dget keq t tl = Some []).
  Proof. apply forecast_tl_affine. Qed.

  (** C09: make_M.  [final w u v]: the forecast of [u] over [w], saved at the last
      time, is [v].  The state has n components, listed by [ix]. *)
  Section M.
    Context {I : Type}.
    Variable ieq : forall a b : I, {a = b} + {a <> b}.
    Variable ix : nat -> I.
    Variable n : nat.
    Hypothesis ix_all : forall i, exists k, (k < n)%nat /\ ix k = i.
    Hypothesis ix_inj : forall j k, (j < n)%nat -> (k < n)%nat -> ix j = ix k -> j = k.
    Variable s : onestep.
    Variable L : K -> arr K I -> arr K I.
    Hypothesis Llin : forall t, linear (L t).
    Variable ens : list K -> list (arr K I) -> saved K -> res (dict K (list (arr K I))).
    Hypothesis Hens : pool_ens keq fsub (onestep_fun s) (pure L) ens.
    Definition basis (k : nat) : arr K I := fun j => if ieq (ix k) j then 1 else 0.

    Theorem C09_make_M_rows w :
      w <> [] ->
      exists M, make_M keq ens n basis w = Ok M /\ length M = n
        /\ forall k, (k < n)%nat -> exists row, nth_error M k = Some row
             /\ final K keq s L w (basis k) row.
    Proof. apply make_M_rows'; auto. Qed.

    (** forecast(u0) = u0^T M *)
    Theorem C09_make_M_is_transpose w u0 M v :
      w <> [] -> make_M keq ens n basis w = Ok M -> final K keq s L w u0 v ->
      forall j, v j = lsum K (map (fun k => u0 (ix k) * nth k M vzero j) (seq 0 n)).
    Proof. apply make_M_left'; auto. Qed.

    (** make_M @ u0 = forecast(u0) for every u0 exactly when M is symmetric *)
    Theorem C09_make_M_matvec_iff_symmetric w M :
      w <> [] -> make_M keq ens n basis w = Ok M ->
      (forall u0 v, final K keq s L w u0 v -> forall k, (k < n)%nat ->
         v (ix k) = lsum K (map (fun j => nth k M vzero (ix j) * u0 (ix j)) (seq 0 n)))
      <-> (forall k j, (k < n)%nat -> (j < n)%nat ->
             nth k M vzero (ix j) = nth j M vzero (ix k)).
    Proof. apply make_M_right_iff'; auto. Qed.
  End M.
End Props.

(** C09: the natural reading make_M(window) @ u0 = forecast(u0) fails for the shift
    u' = (u_1, 0) with Euler and one step of length 1 *)
Theorem C09_make_M_matvec_refuted :
  exists (L : QcF -> arr QcF bool -> arr QcF bool) (w : list QcF) (u0 v : arr QcF bool) M ens,
    (forall t, linear (L t)) /\
    pool_ens qeq fsub (onestep_fun SEuler) (pure L) ens /\
    make_M qeq ens 2 (fun k j => if Bool.bool_dec (Nat.eqb k 0) j then f1 else f0) w = Ok M /\
    final QcF qeq SEuler L w u0 v /\
    v true <> lsum QcF (map (fun i => fmul (nth 0 M vzero i) (u0 i)) [true; false]).
Proof. exact make_M_refutation. Qed.

(** C78: a saved time listed twice makes forecast_tl divide twice by h (and subtract the
    reference twice) *)
Theorem C78_forecast_tl_duplicates_refuted :
  exists (f : QcF -> arr QcF unit -> arr QcF unit) (h : QcF) w u p t tl ens,
    affine_with QcF f f /\ h <> f0 /\ In t w /\
    pool_ens qeq fsub (onestep_fun SEuler) (pure f) ens /\
    (exists fc, forecast_tl qeq fsub (onestep_fun SEuler) (pure f)
        (fun st p => vadd st (vscale h p)) (fun a b => vdiv (vsub a b) h) ens w u [p]
        (SIter [t; t]) = Ok (fc, tl)) /\
    exists d v, forecast qeq fsub (onestep_fun SEuler) (pure f) w p (SIter [t; t]) = Ok d
      /\ dget qeq t d = Some v /\ dget qeq t tl <> Some [v].
Proof. exact tl_duplicates. Qed.

(** ** concrete cases *)
Section Examples.
  Let q (z : Z) : QcF := qc z 1.
  Let ens := ensemble_seq qeq fsub (onestep_fun SRk2)
               (pure (fun t (u : arr QcF unit) i => fadd (fmul t (u i)) (q 3))).
  (** affine trend u' = t u + 3: hypotheses of C08 and the value of forecast_tl *)
  Example ex_C08_affine : affine_with QcF (fun t (u : arr QcF unit) i => fadd (fmul t (u i)) (q 3))
                                      (fun t u i => fmul t (u i)).
  Proof. intros t u h p. apply functional_extensionality; intro i.
    unfold vadd, vscale. simpl. ring. Qed.
  Example ex_C08_pool : pool_ens qeq fsub (onestep_fun SRk2)
      (pure (fun t (u : arr QcF unit) i => fadd (fmul t (u i)) (q 3))) ens.
  Proof. apply seq_is_pool. intros; apply pure_total. Qed.
  Example ex_C08 :
    match forecast_tl qeq fsub (onestep_fun SRk2)
       (pure (fun t (u : arr QcF unit) i => fadd (fmul t (u i)) (q 3)))
       (fun st p => vadd st (vscale (qc 1 10) p)) (fun a b => vdiv (vsub a b) (qc 1 10)) ens
       [q 0; q 1; q 2] (fun _ => q 4) [(fun _ => q 1); (fun _ => q 2)] (SIter [q 2; q 9]) with
    | Ok (_, [(_, [a; b]); (_, [])]) => this (a tt) = (39#8)%Q /\ this (b tt) = (39#4)%Q
    | _ => False end.
  Proof. vm_compute. split; reflexivity. Qed.
End Examples.

Print Assumptions C08_forecast_tl_affine.
Print Assumptions C09_make_M_rows.
Print Assumptions C09_make_M_is_transpose.
Print Assumptions C09_make_M_matvec_iff_symmetric.
Print Assumptions C09_make_M_matvec_refuted.
Print Assumptions C78_forecast_tl_duplicates_refuted.
