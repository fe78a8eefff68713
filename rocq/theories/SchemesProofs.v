From Coq Require Import ZArith List Arith Bool Lia String Field Ring FunctionalExtensionality.
From Verif Require Import PyBase PyBaseFacts Scalars SchemesModel SchemesSpec
  ForecastModel ForecastSpec ForecastProofs.
Import ListNotations.
Open Scope py_scope.

Section P.
  Variable K : Fld.
  Add Field Kf : (f_th K).
  Open Scope fld_scope.


  Lemma nz_1 : (1 : K) <> 0.
  Proof. intros H. apply (fnat_neq0 K 1 ltac:(lia)). simpl. rewrite H. ring. Qed.
  Lemma nz_2 : (1 + 1 : K) <> 0.
  Proof. intros H. apply (fnat_neq0 K 2 ltac:(lia)). rewrite <- H. simpl. ring. Qed.
  Lemma nz_3 : (1 + (1 + 1) : K) <> 0.
  Proof. intros H. apply (fnat_neq0 K 3 ltac:(lia)). rewrite <- H. simpl. ring. Qed.
  Lemma nz_mul (a b : K) : a <> 0 -> b <> 0 -> a * b <> 0.
  Proof.
    intros Ha Hb H. apply Hb. replace b with ((a * b) / a) by (field; auto).
    rewrite H. field. auto.
  Qed.
  Ltac nz := first [exact nz_1 | exact nz_2 | exact nz_3 | refine (nz_mul _ _ _ _); nz].
  Ltac vunf := unfold vadd, vsub, vscale, vdiv, vzero, half, ffact in *.
  Ltac sunf := unfold onestep_fun, onestep_order, euler, rk2, rk4, pure, bind.
  Ltac vfield := apply functional_extensionality; intro; vunf; simpl; field;
     repeat split; nz.

  Lemma pure_step {I} s (f : K -> arr K I -> arr K I) t u dt :
    exists v, onestep_fun s (pure f) t u dt = Ok v.
  Proof. destruct s; sunf; eexists; reflexivity. Qed.

  (** ** polynomial forcing *)
  Definition forcing {I} (c : I -> list K) : K -> arr K I -> arr K I :=
    fun t _ i => peval (c i) t.

  Lemma step_forcing_exact {I} s (c : I -> list K) t u dt :
    (forall i, List.length (c i) <= onestep_order s) ->
    onestep_fun s (pure (forcing c)) t u dt =
    Ok (fun i => u i + (peval (pint (c i)) (t + dt) - peval (pint (c i)) t)).
  Proof.
    intros H. destruct s; sunf; f_equal; apply functional_extensionality; intro i;
      specialize (H i); unfold forcing, pint; vunf;
      destruct (c i) as [|c0 [|c1 [|c2 [|c3 [|]]]]]; simpl in H; try lia; simpl;
      field; repeat split; nz.
  Qed.

  (** ** linear dynamics *)
  Lemma step_linear_exp {I} s (A : arr K I -> arr K I) t u dt :
    linear A ->
    onestep_fun s (pure (fun _ v => A v)) t u dt = Ok (exp_taylor A dt (onestep_order s) u).
  Proof.
    intros [H1 H2]. destruct s; sunf; apply (f_equal Ok); cbn [exp_taylor].
    - vfield.
    - repeat rewrite ?H1, ?H2. vfield.
    - repeat rewrite ?H1, ?H2. vfield.
  Qed.

  (** ** linear changes of variables *)
  Lemma step_natural {I J} s (P : arr K I -> arr K J) (f : @trendT K I) (g : @trendT K J) :
    linear P ->
    (forall t u, g t (P u) = (v <- f t u ;; Ok (P v))) ->
    forall t u dt,
      onestep_fun s g t (P u) dt = (v <- onestep_fun s f t u dt ;; Ok (P v)).
  Proof.
    intros [P1 P2] H t u dt. destruct s; unfold onestep_fun, euler, rk2, rk4.
    - rewrite H. destruct (f t u) as [k1|]; simpl; [|reflexivity].
      rewrite P1, P2. reflexivity.
    - rewrite H. destruct (f t u) as [k1|]; cbn [bind]; [|reflexivity].
      rewrite <- P2, <- P1, H. destruct (f _ _) as [k2|]; cbn [bind]; [|reflexivity].
      rewrite <- P2, <- P1. reflexivity.
    - rewrite H. destruct (f t u) as [k1|]; cbn [bind]; [|reflexivity].
      rewrite <- P2, <- P1, H. destruct (f _ _) as [k2|]; cbn [bind]; [|reflexivity].
      rewrite <- P2, <- P1, H. destruct (f _ _) as [k3|]; cbn [bind]; [|reflexivity].
      rewrite <- P2, <- P1, H. destruct (f _ _) as [k4|]; cbn [bind]; [|reflexivity].
      rewrite <- !P2, <- !P1, <- P2, <- P1. reflexivity.
  Qed.

  (** ** affine trends: finite differences of states evolve linearly *)
  Definition affine_with {I} (f L : K -> arr K I -> arr K I) : Prop :=
    forall t u h p, f t (vadd u (vscale h p)) = vadd (f t u) (vscale h (L t p)).

  Lemma affine_step {I} s (f L : K -> arr K I -> arr K I) t u h p dt v w :
    affine_with f L ->
    onestep_fun s (pure f) t u dt = Ok v ->
    onestep_fun s (pure L) t p dt = Ok w ->
    onestep_fun s (pure f) t (vadd u (vscale h p)) dt = Ok (vadd v (vscale h w)).
  Proof.
    intros Ha. destruct s; sunf; intros H1 H2; inversion H1; inversion H2; subst; clear H1 H2;
      apply (f_equal Ok).
    - rewrite (Ha _ _ h). vfield.
    - rewrite (Ha _ _ h).
      replace (vadd (vadd u (vscale h p)) (vscale (dt * half) (vadd (f t u) (vscale h (L t p)))))
        with (vadd (vadd u (vscale (dt * half) (f t u)))
                   (vscale h (vadd p (vscale (dt * half) (L t p))))) by vfield.
      rewrite (Ha _ _ h). vfield.
    - rewrite (Ha _ _ h).
      replace (vadd (vadd u (vscale h p)) (vscale (dt * half) (vadd (f t u) (vscale h (L t p)))))
        with (vadd (vadd u (vscale (dt * half) (f t u)))
                   (vscale h (vadd p (vscale (dt * half) (L t p))))) by vfield.
      rewrite (Ha _ _ h).
      match goal with |- context [vadd (vadd u (vscale h p))
            (vscale (dt * half) (vadd ?k (vscale h ?l)))] =>
        replace (vadd (vadd u (vscale h p)) (vscale (dt * half) (vadd k (vscale h l))))
        with (vadd (vadd u (vscale (dt * half) k)) (vscale h (vadd p (vscale (dt * half) l))))
        by vfield end.
      rewrite (Ha _ _ h).
      match goal with |- context [vadd (vadd u (vscale h p))
            (vscale dt (vadd ?k (vscale h ?l)))] =>
        replace (vadd (vadd u (vscale h p)) (vscale dt (vadd k (vscale h l))))
        with (vadd (vadd u (vscale dt k)) (vscale h (vadd p (vscale dt l))))
        by vfield end.
      rewrite (Ha _ _ h). vfield.
  Qed.

  (** ** leapfrog *)
  Lemma leapfrog_Ok {I} (f : @trendT K I) t u0 u1 dt out :
    leapfrog f t [u0; u1] dt = Ok out ->
    exists k, f t u1 = Ok k /\ out = [u1; vadd u0 (vscale (fnat 2 * dt) k)].
  Proof.
    simpl. destruct (f t u1) as [k|]; simpl; intros H; inversion H. eauto.
  Qed.

  Lemma leapfrog_reversible {I} (f : @trendT K I) t u0 u1 u2 dt :
    leapfrog f t [u0; u1] dt = Ok [u1; u2] ->
    leapfrog f t [u2; u1] (- dt) = Ok [u1; u0].
  Proof.
    intros H. apply leapfrog_Ok in H as (k & Hk & E). inversion E; subst.
    simpl. rewrite Hk. simpl. repeat apply f_equal. f_equal.
    apply functional_extensionality; intro i. vunf. simpl. ring.
  Qed.

  Lemma leapfrog_ValueError {I} (f : @trendT K I) t us dt :
    List.length us <> 2 -> leapfrog f t us dt = Err ValueError.
  Proof. destruct us as [|a [|b [|c us]]]; simpl; auto; lia. Qed.

  (** ** identity model *)
  Lemma identity_step {I} s t (u : arr K I) dt :
    onestep_fun s identity_trend t u dt = Ok u.
  Proof.
    destruct s; unfold onestep_fun, euler, rk2, rk4, identity_trend; cbn [bind];
      apply (f_equal Ok); vfield.
  Qed.

  Lemma identity_leapfrog {I} t (u0 u1 : arr K I) dt :
    leapfrog identity_trend t [u0; u1] dt = Ok [u1; u0].
  Proof.
    simpl. apply (f_equal Ok). f_equal. f_equal. apply functional_extensionality; intro.
    vunf. ring.
  Qed.

  (** ** trends that depend on an inactive functional *)
  Lemma step_functional {I} s (phi : arr K I -> K) (f : K -> arr K I -> arr K I) t u dt v :
    (forall a b, phi (vadd a b) = phi a + phi b) ->
    (forall c a, phi (vscale c a) = c * phi a) ->
    (forall t u, phi (f t u) = 0) ->
    onestep_fun s (pure f) t u dt = Ok v -> phi v = phi u.
  Proof.
    intros H1 H2 H3. destruct s; sunf; intros H; inversion H; subst;
      repeat rewrite ?H1, ?H2, ?H3; simpl; field; repeat split; nz.
  Qed.
End P.

(** ** splitting *)
Section Split.
  Context {T S D TR : Type}.
  Implicit Types steps : list (fstep T S D TR).

  Lemma splitting_app steps1 steps2 t u dt :
    time_splitting (steps1 ++ steps2) t u dt =
    (v <- time_splitting steps1 t u dt ;; time_splitting steps2 t v dt).
  Proof. unfold time_splitting. apply foldM_app. Qed.

  Lemma splitting_single_scheme (tr : TR) (sch : TR -> T -> S -> D -> res S) t u (dt : D) :
    time_splitting [mkStep None (Some tr) (Some sch)] t u dt = sch tr t u dt
    .
  Proof. unfold time_splitting. simpl. unfold frac_step; simpl. destruct (sch tr t u dt); reflexivity. Qed.

  Lemma splitting_single_update upd (tr : option TR) sch (t : T) (u : S) (dt : D) :
    time_splitting [mkStep (Some upd) tr sch] t u dt = upd t u dt.
  Proof. unfold time_splitting. simpl. unfold frac_step; simpl. destruct (upd t u dt); reflexivity. Qed.

  Lemma splitting_KeyError (tr : option TR) (sch : option (TR -> T -> S -> D -> res S)) t u dt rest :
    tr = None \/ sch = None ->
    time_splitting (mkStep None tr sch :: rest) t u dt = Err KeyError.
  Proof. unfold time_splitting. simpl. unfold frac_step; simpl. destruct tr, sch; intros [H|H]; auto; discriminate. Qed.

  Lemma splitting_nil t u dt : time_splitting ([] : list (fstep T S D TR)) t u dt = Ok u.
  Proof. reflexivity. Qed.
End Split.

(** ** scheme selection *)
Section Sel.
  Lemma names_dget n s : dget string_dec n time_schemes = Some s <-> names n s.
  Proof.
    unfold time_schemes. cbn [dget].
    repeat match goal with |- context [string_dec n ?x] => destruct (string_dec n x); [subst|] end;
      split; intros H; inversion H; subst; try congruence; constructor.
  Qed.

  Lemma names_none n : dget string_dec n time_schemes = None <-> forall s, ~ names n s.
  Proof.
    split.
    - intros H s Hs. apply names_dget in Hs. congruence.
    - intros H. destruct (dget string_dec n time_schemes) as [s|] eqn:E; auto.
      apply names_dget in E. destruct (H s E).
  Qed.

  Lemma set_history init hist :
    exists s, fold_left (fun a n => fst (set_time_scheme a n)) hist (Some init) = Some s
      /\ active_after init hist s.
  Proof.
    induction hist as [|n hist (s & E & A)] using rev_ind.
    - exists init. split; [reflexivity|constructor].
    - rewrite fold_left_app, E. cbn [fold_left]. unfold set_time_scheme.
      destruct (dget string_dec n time_schemes) as [s'|] eqn:Ed; cbn [fst].
      + exists s'. split; auto. apply aa_valid. apply names_dget; auto.
      + exists s. split; auto. apply aa_invalid; auto. apply names_none; auto.
  Qed.

  Lemma active_after_fun init hist s s' :
    active_after init hist s -> active_after init hist s' -> s = s'.
  Proof.
    assert (F : forall n a b, names n a -> names n b -> a = b).
    { intros n a b Ha Hb. apply names_dget in Ha, Hb. congruence. }
    intros H. revert s'. induction H as [|h n s Hn|h n s Hn H IH]; intros s' H';
      inversion H' as [E|h' n' s'' Hn' E|h' n' s'' Hn' Ha E]; subst; auto;
      try (destruct h; discriminate); try (destruct h'; discriminate);
      apply app_inj_tail in E as [-> ->].
    - eauto.
    - destruct (Hn' _ Hn).
    - destruct (Hn _ Hn').
    - auto.
  Qed.

  Lemma set_result a n :
    (forall s, names n s -> set_time_scheme a n = (Some s, Ok tt))
    /\ ((forall s, ~ names n s) -> set_time_scheme a n = (a, Err ValueError)).
  Proof.
    unfold set_time_scheme. split.
    - intros s Hs. apply names_dget in Hs. rewrite Hs. reflexivity.
    - intros H. apply names_none in H. rewrite H. reflexivity.
  Qed.

  Lemma init_result n :
    (forall s, names n s -> model_init n = Ok s)
    /\ ((forall s, ~ names n s) -> model_init n = Err ValueError).
  Proof.
    unfold model_init. destruct (set_result None n) as [H1 H2]. split.
    - intros s Hs. rewrite (H1 s Hs). reflexivity.
    - intros H. rewrite (H2 H). reflexivity.
  Qed.
End Sel.

(** sharpness of the forcing degrees: 1, t, t^2/t^4 integrated on [0,1] *)
Lemma forcing_not_beyond : forall s,
  exists (c : list QcF) t u dt, List.length c = S (onestep_order s)
    /\ onestep_fun (I := unit) s (pure (fun t _ _ => peval c t)) t u dt
       <> Ok (fun i => fadd (u i) (fsub (peval (pint c) (fadd t dt)) (peval (pint c) t))).
Proof.
  assert (G : forall (a : res (arr QcF unit)) b,
     match a with Ok f => f tt <> b tt | Err _ => True end -> a <> Ok b).
  { intros [f|e] b H E; [|discriminate]. inversion E; subst. apply H; reflexivity. }
  intros s.
  exists (repeat (qc 0%Z 1%positive) (onestep_order s) ++ [qc 1%Z 1%positive]), (qc 0%Z 1%positive), (fun _ => qc 0%Z 1%positive), (qc 1%Z 1%positive).
  split; [destruct s; reflexivity|]. apply G. destruct s; vm_compute; discriminate.
Qed.
