From Coq Require Import List Arith Bool Lia.
From Verif Require Import PyBase PyBaseFacts ForecastModel ForecastSpec ForecastProofs EnsembleProofs ForecastGenModel ForecastGenSpec.
Import ListNotations.
Open Scope py_scope.

Section Gen.
  Context {T D S TR : Type}.
  Variable teq : forall a b : T, {a = b} + {a <> b}.
  Variable tsub : T -> T -> D.
  Variable scheme : TR -> T -> S -> D -> res S.
  Variable trend : TR.
  Notation forecast := (forecast teq tsub scheme trend).
  Notation predict := (predict teq tsub scheme trend).
  Notation gen_forecast := (gen_forecast teq tsub scheme trend).
  Notation gen_predict := (gen_predict teq tsub scheme trend).
  Notation fw := (fw teq tsub scheme trend).
  Notation pw := (pw teq tsub scheme trend).

  Fixpoint greedy (w g : list T) : nat :=
    match w with [] => 0 | t :: r => match iter_in teq t g with (true, g') => Datatypes.S (greedy r g') | (false, _) => 0 end end.

  Lemma iter_in_true t g g' : iter_in teq t g = (true, g') -> exists h, g = h ++ t :: g' /\ ~ In t h.
  Proof.
    revert g'. induction g as [|x g IH]; cbn; intros g' H; [discriminate|]. destruct (teq t x) as [->|Hn].
    - injection H as <-. exists []. split; [reflexivity|intros []].
    - destruct (IH _ H) as (h & -> & Hh). exists (x :: h). split; [reflexivity|]. intros [->|H']; [congruence|exact (Hh H')].
  Qed.
  Lemma iter_in_false t g g' : iter_in teq t g = (false, g') -> g' = [] /\ ~ In t g.
  Proof.
    revert g'. induction g as [|x g IH]; cbn; intros g' H; [injection H as <-; split; [reflexivity|intros []]|].
    destruct (teq t x) as [->|Hn]; [discriminate|]. destruct (IH _ H) as (-> & Hh). split; [reflexivity|]. intros [->|H']; [congruence|exact (Hh H')].
  Qed.
  Lemma subsequence_in (l g : list T) : subsequence l g -> forall x, In x l -> In x g.
  Proof. induction 1; cbn; intros y Hy; [destruct Hy|destruct Hy as [->|Hy]; auto|auto]. Qed.
  Lemma subsequence_app (l g h : list T) : subsequence l g -> subsequence l (h ++ g).
  Proof. intros H. induction h; [exact H|]. apply sub_skip. exact IHh. Qed.
  Lemma subsequence_after (t : T) l h g : ~ In t h -> subsequence (t :: l) (h ++ t :: g) -> subsequence l g.
  Proof.
    induction h as [|x h IH]; cbn [app]; intros Hn H.
    - inversion H; subst; [assumption|]. clear - H2. remember (t :: l) as k eqn:E. revert l E. induction H2; intros l' E; [discriminate| |].
      + injection E as -> ->. apply sub_skip. assumption. + apply sub_skip. apply IHsubsequence, E.
    - inversion H; subst; [destruct Hn; left; reflexivity|]. apply IH; [intros G; apply Hn; right; exact G|assumption].
  Qed.
  Lemma greedy_nil w : greedy w [] = 0.
  Proof. destruct w; reflexivity. Qed.
  Lemma greedy_served w : forall g, served w g (greedy w g).
  Proof.
    induction w as [|t w IH]; intros g; cbn [greedy].
    - split; [apply le_n|]. split; [constructor|]. intros j H1 H2. cbn in H2. lia.
    - destruct (iter_in teq t g) as [[] g'] eqn:E.
      + apply iter_in_true in E. destruct E as (h & -> & Hh). destruct (IH g') as (H1 & H2 & H3). split; [cbn; lia|]. split.
        * cbn [firstn]. apply subsequence_app. constructor. exact H2.
        * intros j' L1 L2 H. destruct j' as [|j']; [lia|]. cbn [firstn length] in *. apply (H3 j'); [lia|lia|]. apply (subsequence_after t _ h); assumption.
      + apply iter_in_false in E. destruct E as [-> E]. split; [lia|]. split; [constructor|]. intros j' L1 _ H. destruct j' as [|j']; [lia|]. cbn [firstn] in H.
        apply E, (subsequence_in _ _ H). left. reflexivity.
  Qed.
  Lemma served_unique (w g : list T) j j' : served w g j -> served w g j' -> j = j'.
  Proof.
    intros (H1 & H2 & H3) (K1 & K2 & K3). destruct (Nat.lt_trichotomy j j') as [L|[L|L]]; [|exact L|]; [destruct (H3 j' L K1 K2)|destruct (K3 j L H1 H2)].
  Qed.

  (** *** the loop *)
  Definition gw (it : list T) (traj : dict T S) (w : list T) (u0 : S) : res (dict T S * list T) :=
    r <- gen_forecast_loop teq tsub scheme trend (intervals w) it traj u0 ;;
    let '(traj, u, it) := r in
    match last_opt w with
    | None => Err IndexError
    | Some time => let '(b, it) := iter_in teq time it in Ok (if b then dset teq time u traj else traj, it)
    end.
  Lemma gw_cons it traj t t' w u : gw it traj (t :: t' :: w) u =
    (u1 <- scheme trend t u (tsub t' t) ;;
     gw (snd (iter_in teq t it)) (if fst (iter_in teq t it) then dset teq t u traj else traj) (t' :: w) u1).
  Proof.
    unfold gw, intervals. change (removelast (t :: t' :: w)) with (t :: removelast (t' :: w)). change (tl (t :: t' :: w)) with (t' :: w).
    simpl combine. cbn [gen_forecast_loop]. destruct (iter_in teq t it) as [b it']. cbn [fst snd].
    destruct (scheme trend t u (tsub t' t)); [|reflexivity]. cbn [bind]. reflexivity.
  Qed.
  Lemma gw_nothing w : forall traj u, gw [] traj w u = (r <- fw [] traj w u ;; Ok (r, [])).
  Proof.
    induction w as [|t w IH]; intros traj u; [reflexivity|]. destruct w as [|t' w]; [reflexivity|]. rewrite gw_cons, fw_cons. cbn [iter_in fst snd].
    destruct (scheme trend t u (tsub t' t)); [|reflexivity]. cbn [bind]. apply IH.
  Qed.
  Lemma fw_nothing w : forall traj u r, fw [] traj w u = Ok r -> r = traj.
  Proof.
    induction w as [|t w IH]; intros traj u r H; [discriminate|]. destruct w as [|t' w]; [rewrite fw_single in H; injection H as <-; reflexivity|].
    rewrite fw_cons in H. destruct (scheme trend t u (tsub t' t)); [|discriminate]. cbn [bind] in H. exact (IH _ _ _ H).
  Qed.
  Lemma gw_err w : forall it l traj traj' u e, gw it traj w u = Err e <-> fw l traj' w u = Err e.
  Proof.
    induction w as [|t w IH]; intros it l traj traj' u e; [cbn; split; intros H; injection H as <-; reflexivity|]. destruct w as [|t' w].
    - rewrite fw_single. cbn. destruct (iter_in teq t it). split; discriminate.
    - rewrite gw_cons, fw_cons. destruct (scheme trend t u (tsub t' t)); [|cbn; split; intros H; injection H as <-; reflexivity]. cbn [bind]. apply IH.
  Qed.
  Lemma gw_spec w : forall it traj u r it', gw it traj w u = Ok (r, it') ->
    (greedy w it = 0 -> r = traj) /\ (greedy w it <> 0 -> forall l, incl (firstn (greedy w it) w) l -> fw l traj (firstn (greedy w it) w) u = Ok r).
  Proof.
    induction w as [|t w IH]; intros it traj u r it' H; [discriminate|]. destruct w as [|t' w].
    - cbn in H. cbn [greedy]. destruct (iter_in teq t it) as [[] it0]; injection H as <- <-; (split; [intros; try discriminate; reflexivity|]); [|congruence].
      intros _ l Hl. cbn [firstn] in *. rewrite fw_single. rewrite (proj2 (lmem_true teq t l)); [reflexivity|]. apply Hl. left. reflexivity.
    - rewrite gw_cons in H. cbn [greedy]. destruct (iter_in teq t it) as [[] it0] eqn:E; cbn [fst snd] in H.
      + split; [discriminate|]. intros _ l Hl. destruct (scheme trend t u (tsub t' t)) as [u1|] eqn:Es; [|discriminate]. cbn [bind] in H.
        destruct (IH _ _ _ _ _ H) as [I1 I2]. change (match iter_in teq t' it0 with (true, g') => Datatypes.S (greedy w g') | (false, _) => 0 end) with (greedy (t' :: w) it0) in *.
        assert (Ht : lmem teq t l = true) by (apply lmem_true, Hl; left; reflexivity).
        destruct (Nat.eq_dec (greedy (t' :: w) it0) 0) as [Z|NZ].
        * rewrite Z. cbn [firstn]. rewrite fw_single, Ht, (I1 Z). reflexivity.
        * specialize (I2 NZ l). destruct (greedy (t' :: w) it0) as [|j]; [congruence|]. cbn [firstn] in *. rewrite fw_cons, Es, Ht. cbn [bind]. apply I2.
          intros x Hx. apply Hl. right. exact Hx.
      + apply iter_in_false in E. destruct E as [-> _]. split; [intros _|congruence]. destruct (scheme trend t u (tsub t' t)) as [u1|]; [|discriminate]. cbn [bind] in H.
        rewrite gw_nothing in H. destruct (fw [] traj (t' :: w) u1) eqn:F; [|discriminate]. cbn [bind] in H. injection H as <- _. exact (fw_nothing _ _ _ _ F).
  Qed.

  Lemma gen_forecast_prefix w u0 g traj rest j : gen_forecast w u0 g = Ok (traj, rest) -> served w g j ->
    (j = 0 /\ traj = []) \/ (0 < j /\ forecast (firstn j w) u0 SNone = Ok traj).
  Proof.
    intros H Hj. rewrite (served_unique _ _ _ _ Hj (greedy_served w g)). clear j Hj. destruct (gw_spec w g [] u0 traj rest H) as [H1 H2].
    destruct (Nat.eq_dec (greedy w g) 0) as [Z|NZ]; [left; auto|]. right. split; [lia|]. rewrite (forecast_fw teq tsub scheme trend (firstn (greedy w g) w) u0 SNone (firstn (greedy w g) w) eq_refl).
    apply (H2 NZ). intros x Hx. exact Hx.
  Qed.
  Lemma gen_forecast_fails w u0 g e : gen_forecast w u0 g = Err e <-> forecast w u0 SNone = Err e.
  Proof. rewrite (forecast_fw teq tsub scheme trend w u0 SNone w eq_refl). apply (gw_err w g w [] [] u0 e). Qed.

  (** *** predict *)
  Definition gp (it : list T) (traj : list S) (w : list T) (u0 : S) : res (list S * list T) :=
    r <- gen_predict_loop teq tsub scheme trend (intervals w) it traj u0 ;;
    let '(traj, u, it) := r in
    match last_opt w with
    | None => Err IndexError
    | Some time => let '(b, it) := iter_in teq time it in Ok (if b then traj ++ [u] else traj, it)
    end.
  Lemma gp_cons it traj t t' w u : gp it traj (t :: t' :: w) u =
    (u1 <- scheme trend t u (tsub t' t) ;;
     gp (snd (iter_in teq t it)) (if fst (iter_in teq t it) then traj ++ [u] else traj) (t' :: w) u1).
  Proof.
    unfold gp, intervals. change (removelast (t :: t' :: w)) with (t :: removelast (t' :: w)). change (tl (t :: t' :: w)) with (t' :: w).
    simpl combine. cbn [gen_predict_loop]. destruct (iter_in teq t it) as [b it']. cbn [fst snd].
    destruct (scheme trend t u (tsub t' t)); [|reflexivity]. cbn [bind]. reflexivity.
  Qed.
  Lemma gp_nothing w : forall traj u, gp [] traj w u = (r <- pw [] traj w u ;; Ok (r, [])).
  Proof.
    induction w as [|t w IH]; intros traj u; [reflexivity|]. destruct w as [|t' w]; [reflexivity|]. rewrite gp_cons, pw_cons. cbn [iter_in fst snd].
    destruct (scheme trend t u (tsub t' t)); [|reflexivity]. cbn [bind]. apply IH.
  Qed.
  Lemma pw_nothing w : forall traj u r, pw [] traj w u = Ok r -> r = traj.
  Proof.
    induction w as [|t w IH]; intros traj u r H; [discriminate|]. destruct w as [|t' w]; [cbn in H; injection H as <-; reflexivity|].
    rewrite pw_cons in H. destruct (scheme trend t u (tsub t' t)); [|discriminate]. cbn [bind] in H. exact (IH _ _ _ H).
  Qed.
  Lemma pw_single l traj t u : pw l traj [t] u = Ok (if lmem teq t l then traj ++ [u] else traj).
  Proof. reflexivity. Qed.
  Lemma gp_spec w : forall it traj u r it', gp it traj w u = Ok (r, it') ->
    (greedy w it = 0 -> r = traj) /\ (greedy w it <> 0 -> forall l, incl (firstn (greedy w it) w) l -> pw l traj (firstn (greedy w it) w) u = Ok r).
  Proof.
    induction w as [|t w IH]; intros it traj u r it' H; [discriminate|]. destruct w as [|t' w].
    - cbn in H. cbn [greedy]. destruct (iter_in teq t it) as [[] it0]; injection H as <- <-; (split; [intros; try discriminate; reflexivity|]); [|congruence].
      intros _ l Hl. cbn [firstn] in *. rewrite pw_single. rewrite (proj2 (lmem_true teq t l)); [reflexivity|]. apply Hl. left. reflexivity.
    - rewrite gp_cons in H. cbn [greedy]. destruct (iter_in teq t it) as [[] it0] eqn:E; cbn [fst snd] in H.
      + split; [discriminate|]. intros _ l Hl. destruct (scheme trend t u (tsub t' t)) as [u1|] eqn:Es; [|discriminate]. cbn [bind] in H.
        destruct (IH _ _ _ _ _ H) as [I1 I2]. change (match iter_in teq t' it0 with (true, g') => Datatypes.S (greedy w g') | (false, _) => 0 end) with (greedy (t' :: w) it0) in *.
        assert (Ht : lmem teq t l = true) by (apply lmem_true, Hl; left; reflexivity).
        destruct (Nat.eq_dec (greedy (t' :: w) it0) 0) as [Z|NZ].
        * rewrite Z. cbn [firstn]. rewrite pw_single, Ht, (I1 Z). reflexivity.
        * specialize (I2 NZ l). destruct (greedy (t' :: w) it0) as [|j]; [congruence|]. cbn [firstn] in *. rewrite pw_cons, Es, Ht. cbn [bind]. apply I2.
          intros x Hx. apply Hl. right. exact Hx.
      + apply iter_in_false in E. destruct E as [-> _]. split; [intros _|congruence]. destruct (scheme trend t u (tsub t' t)) as [u1|]; [|discriminate]. cbn [bind] in H.
        rewrite gp_nothing in H. destruct (pw [] traj (t' :: w) u1) eqn:F; [|discriminate]. cbn [bind] in H. injection H as <- _. exact (pw_nothing _ _ _ _ F).
  Qed.
  Lemma gen_predict_prefix w u0 g traj rest j : gen_predict w u0 g = Ok (traj, rest) -> served w g j ->
    (j = 0 /\ traj = []) \/ (0 < j /\ predict (firstn j w) u0 SNone = Ok traj).
  Proof.
    intros H Hj. rewrite (served_unique _ _ _ _ Hj (greedy_served w g)). clear j Hj. destruct (gp_spec w g [] u0 traj rest H) as [H1 H2].
    destruct (Nat.eq_dec (greedy w g) 0) as [Z|NZ]; [left; auto|]. right. split; [lia|]. rewrite (predict_pw teq tsub scheme trend (firstn (greedy w g) w) u0 SNone (firstn (greedy w g) w) eq_refl).
    apply (H2 NZ). intros x Hx. exact Hx.
  Qed.

  (** *** the whole window served *)
  Lemma served_all (w g : list T) : subsequence w g -> served w g (length w).
  Proof. intros H. split; [apply le_n|]. split; [rewrite firstn_all; exact H|]. intros j H1 H2. lia. Qed.
  Lemma gen_forecast_all w u0 g traj : subsequence w g -> forecast w u0 SNone = Ok traj -> exists rest, gen_forecast w u0 g = Ok (traj, rest).
  Proof.
    intros Hs H. destruct (gen_forecast w u0 g) as [[traj' rest]|e] eqn:E.
    - exists rest. destruct (gen_forecast_prefix w u0 g traj' rest (length w) E (served_all w g Hs)) as [[Z ->]|[_ H']].
      + destruct w; [|discriminate]. discriminate. + rewrite firstn_all, H in H'. injection H' as ->. reflexivity.
    - apply gen_forecast_fails in E. congruence.
  Qed.
  (** the first time of the window is not given *)
  Lemma gen_forecast_none t w u0 g traj rest : ~ In t g -> gen_forecast (t :: w) u0 g = Ok (traj, rest) -> traj = [].
  Proof.
    intros Hn H. assert (Hj : served (t :: w) g 0).
    { split; [lia|]. split; [constructor|]. intros j H1 H2 Hs. destruct j as [|j]; [lia|]. apply Hn, (subsequence_in _ _ Hs). left. reflexivity. }
    destruct (gen_forecast_prefix _ _ _ _ _ _ H Hj) as [[_ ->]|[C _]]; [reflexivity|lia].
  Qed.

  (** *** ensembles *)
  Lemma gen_exhausted w u0 r : gen_forecast w u0 [] = Ok r -> r = ([], []).
  Proof.
    intros H. change (gen_forecast w u0 []) with (gw [] [] w u0) in H. rewrite gw_nothing in H. destruct (fw [] [] w u0) eqn:F; [|discriminate].
    cbn [bind] in H. injection H as <-. rewrite (fw_nothing _ _ _ _ F). reflexivity.
  Qed.
  Definition empties (g : list T) : dict T (list S) := fold_left (fun d time => dset teq time [] d) g [].
  Lemma empties_get g t : (In t g -> dget teq t (empties g) = Some []) /\ (~ In t g -> dget teq t (empties g) = None).
  Proof.
    unfold empties. pose proof (init_keys teq tsub scheme trend g []) as K. pose proof (init_vals (S:=S) teq g [] ltac:(discriminate) t) as V.
    set (d := fold_left (fun (d : dict T (list S)) (time : T) => dset teq time [] d) g []) in *. cbn [dkeys map app] in K. split; intros H.
    - destruct (dget_key_ex teq t d) as [v Hv]; [rewrite K; apply firsts_from_In; auto|]. rewrite Hv, (V v Hv). reflexivity.
    - apply dget_None. rewrite K. intros C. apply firsts_from_In in C. tauto.
  Qed.
  Lemma gen_ensemble_seq_lost w states g d rest : gen_ensemble_seq teq tsub scheme trend w states g = Ok (d, rest) -> d = empties g.
  Proof.
    unfold gen_ensemble_seq, gen_init. fold (empties g). intros H. enough (G : forall st f d rest, foldM (fun (a : dict T (list S) * list T) state =>
             r <- gen_forecast w state (snd a) ;; d <- append_all teq (fst a) (fst r) ;; Ok (d, snd r)) (f, []) st = Ok (d, rest) -> d = f) by exact (G _ _ _ _ H).
    clear. induction st as [|s st IH]; intros f d rest H; cbn in H; [injection H as <- _; reflexivity|].
    destruct (gen_forecast w s []) as [r|] eqn:E; [|discriminate]. apply gen_exhausted in E. subst r. cbn in H. exact (IH _ _ _ H).
  Qed.
  Lemma gen_ensemble_seq_fails w states g : (exists d rest, gen_ensemble_seq teq tsub scheme trend w states g = Ok (d, rest)) <-> forall u, In u states -> exists traj, forecast w u SNone = Ok traj.
  Proof.
    unfold gen_ensemble_seq, gen_init. fold (empties g). generalize (empties g). induction states as [|s st IH]; intros f.
    - split; [intros _ u []|]. intros _. exists f, []. reflexivity.
    - cbn [foldM fst snd]. destruct (gen_forecast w s []) as [r|e] eqn:E.
      + pose proof (gen_exhausted _ _ _ E). subst r. cbn [bind append_all fst snd]. cbn. etransitivity; [apply IH|].
        assert (exists traj, forecast w s SNone = Ok traj) as Hs.
        { destruct (forecast w s SNone) as [x|e] eqn:F; [eauto|]. apply (gen_forecast_fails w s []) in F. congruence. }
        split; intros H u Hu; [destruct Hu as [<-|Hu]; auto|apply H; right; exact Hu].
      + split; [intros (d & rest & H); discriminate|]. intros H. destruct (H s (or_introl eq_refl)) as [traj Ht]. apply gen_forecast_fails in E. congruence.
  Qed.
  Lemma mapM_empty w st fcs : mapM (fun state => r <- gen_forecast w state [] ;; Ok (fst r)) st = Ok fcs -> forall f, foldM (append_all teq) f fcs = Ok f.
  Proof.
    revert fcs. induction st as [|s st IH]; intros fcs H f; cbn in H; [injection H as <-; reflexivity|].
    destruct (gen_forecast w s []) as [r|] eqn:E; [|discriminate]. apply gen_exhausted in E. subst r. cbn [bind fst] in H. destruct (mapM _ st) as [fs|]; [|discriminate].
    cbn [bind] in H. injection H as <-. cbn. apply (IH fs eq_refl).
  Qed.
  Lemma gen_ensemble_par_lost p w states g d rest : gen_ensemble_par teq tsub scheme trend p w states g = Ok (d, rest) -> d = empties g /\ rest = [] /\ (p = true \/ states = []).
  Proof.
    unfold gen_ensemble_par, gen_init. fold (empties g). destruct states as [|s st].
    - cbn. intros H. injection H as <- <-. auto.
    - destruct p; [|discriminate]. intros H. destruct (mapM _ (s :: st)) as [fcs|] eqn:E; [|discriminate]. cbn [bind] in H. rewrite (mapM_empty _ _ _ E) in H. cbn [bind] in H.
      injection H as <- <-. auto.
  Qed.
  Lemma gen_tl_lost {P} (pert : S -> P -> S) (quot : S -> S -> S) p w u ps g fc tl :
    gen_forecast_tl teq tsub scheme trend pert quot p w u ps g = Ok (fc, tl) -> (forall t, dget teq t tl = None \/ dget teq t tl = Some []) /\ (p = true \/ ps = []).
  Proof.
    unfold gen_forecast_tl. destruct (gen_forecast w u g) as [[fc' it]|]; [|discriminate]. cbn [bind].
    destruct (gen_ensemble_par _ _ _ _ _ _ _ _) as [[d rest]|] eqn:E; [|discriminate]. cbn [bind]. apply gen_ensemble_par_lost in E. destruct E as (-> & -> & E).
    cbn. intros H. injection H as _ <-. split.
    - intros t. destruct (empties_get it t) as [H1 H2]. destruct (in_dec teq t it); auto.
    - destruct E as [E|E]; [auto|]. right. destruct ps; [reflexivity|discriminate].
  Qed.
End Gen.
