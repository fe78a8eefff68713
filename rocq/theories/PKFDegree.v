(** Number of factors and order of differentiation of the averages of the systems of SymbolicPKF. *)
From Coq Require Import List Arith ZArith QArith Bool String Permutation Lia.
From Verif Require Import PyBase PyBaseFacts PartialOrderModel PartialOrderSpec TreeModel TreeSpec TreeProofs TreeMore TreeProps
  PKFModel PKFSpec PKFAlg PKFAtoms PKFClosure PKFProofs PKFInv PKFShape PKFMore PKFWords PKFTime PKFTimeSpec PKFNormal.
Import ListNotations.
Close Scope Q_scope.
Close Scope Z_scope.
Open Scope nat_scope.
Open Scope string_scope.
Open Scope list_scope.

(** *** random factors of products *)
Lemma random_app a b : random_jets (a ++ b) = random_jets a ++ random_jets b.
Proof. apply flat_map_app. Qed.
Lemma random_perm a b : Permutation a b -> Permutation (random_jets a) (random_jets b).
Proof. intros H. apply Permutation_flat_map, H. Qed.
Lemma remove_perm a m r : remove_atom a m = Some r -> Permutation m (a :: r).
Proof.
  revert r. induction m as [|b m IH]; intros r H; cbn [remove_atom] in H; [discriminate|].
  destruct (atom_eq_dec a b) as [->|]; [injection H as <-; reflexivity|].
  destruct (remove_atom a m) as [r'|]; [|discriminate]. injection H as <-. rewrite (IH r' eq_refl). constructor.
Qed.
Lemma random_mins a m : Permutation (random_jets (mins a m)) (random_jets [a] ++ random_jets m).
Proof.
  unfold mins. assert (G : Permutation (random_jets (insert_atom a m)) (random_jets [a] ++ random_jets m)).
  { rewrite (random_perm _ _ (insert_perm a m)). change (a :: m) with ([a] ++ m). rewrite random_app. reflexivity. }
  destruct (inverse a) as [b|] eqn:Hi; [|exact G]. destruct (remove_atom b m) as [r|] eqn:Hr; [|exact G].
  rewrite (random_perm _ _ (remove_perm _ _ _ Hr)). destruct a; try discriminate; injection Hi as <-; reflexivity.
Qed.
Lemma random_mmul a b : Permutation (random_jets (mmul a b)) (random_jets a ++ random_jets b).
Proof.
  unfold mmul. induction a as [|x a IH]; [reflexivity|]. cbn [fold_right]. rewrite random_mins, IH.
  change (x :: a) with ([x] ++ a). rewrite random_app, app_assoc. reflexivity.
Qed.

Definition small (m : mono) : nat := List.length (filter (fun a => if atom_eq_dec a ASmall then true else false) m).
Lemma small_app a b : small (a ++ b) = small a + small b.
Proof. unfold small. rewrite filter_app, app_length. reflexivity. Qed.
Lemma small_perm a b : Permutation a b -> small a = small b.
Proof.
  intros H. unfold small. induction H; cbn [filter]; try congruence.
  - destruct (atom_eq_dec x ASmall); cbn [List.length]; congruence.
  - destruct (atom_eq_dec x ASmall), (atom_eq_dec y ASmall); reflexivity.
Qed.
Lemma small_mmul a b : small (mmul a b) = small a + small b.
Proof.
  unfold mmul. induction a as [|x a IH]; [reflexivity|]. cbn [fold_right]. change (x :: a) with ([x] ++ a). rewrite small_app, <- Nat.add_assoc, <- IH.
  generalize (fold_right mins b a). intros m. unfold mins. assert (G : small (insert_atom x m) = small [x] + small m).
  { rewrite (small_perm _ _ (insert_perm x m)). change (x :: m) with ([x] ++ m). apply small_app. }
  destruct (inverse x) as [y|] eqn:Hi; [|exact G]. destruct (remove_atom y m) as [r|] eqn:Hr; [|exact G].
  rewrite (small_perm m _ (remove_perm _ _ _ Hr)). destruct x; try discriminate; injection Hi as <-; reflexivity.
Qed.

Section Degree.
  (** the order of a derivative, a time derivative counting for [k] *)
  Variable k : nat.
  Fixpoint wt (w : word) : nat := match w with [] => 0 | c :: r => (if string_dec c "t" then k else 1) + wt r end.
  Definition jwt (l : list jet) : nat := fold_right (fun j s => wt (snd j) + s) 0 l.
  Lemma wt_perm w w' : Permutation w w' -> wt w = wt w'.
  Proof. intros H. induction H; cbn [wt]; lia. Qed.
  Lemma wt_winsert c w : wt (winsert c w) = wt [c] + wt w.
  Proof. rewrite (wt_perm _ _ (winsert_perm c w)). cbn [wt]. lia. Qed.
  Lemma wt_group w : wt (first_group w) <= wt w.
  Proof.
    induction w as [|c r IH]; [apply le_n|]. cbn [first_group wt]. apply Nat.add_le_mono_l. destruct r as [|d r]; [apply Nat.le_0_l|].
    destruct (string_dec c d); [exact IH|apply Nat.le_0_l].
  Qed.
  Lemma wt_remove w w' : wremove "t" w = Some w' -> wt w = k + wt w'.
  Proof.
    revert w'. induction w as [|d r IH]; intros w' H; cbn [wremove] in H; [discriminate|].
    destruct (string_dec "t" d) as [<-|Hn]; [injection H as <-; reflexivity|].
    destruct (wremove "t" r) as [r'|]; [|discriminate]. injection H as <-. cbn [wt]. rewrite (IH r' eq_refl). lia.
  Qed.
  Lemma jwt_app a b : jwt (a ++ b) = jwt a + jwt b.
  Proof. unfold jwt. induction a as [|j a IH]; [reflexivity|]. cbn [app fold_right]. rewrite IH. lia. Qed.
  Lemma jwt_perm a b : Permutation a b -> jwt a = jwt b.
  Proof. intros H. unfold jwt. induction H; cbn [fold_right]; lia. Qed.

  (** at most [c] random factors, of total order at most [N]; the averages satisfy [A] *)
  Definition rnd (c N : nat) (A : list jet -> Prop) (m : mono) : Prop :=
    List.length (random_jets m) <= c /\ jwt (random_jets m) <= N /\ forall w l, In (AExp w l) m -> A l.
  Notation within c N A := (pmall (rnd c N A)).
  Lemma within_weaken (c N c' N' : nat) (A A' : list jet -> Prop) p : c <= c' -> N <= N' -> (forall l, A l -> A' l) -> within c N A p -> within c' N' A' p.
  Proof. intros H1 H2 H3 Hp q m Hm. destruct (Hp q m Hm) as (G1 & G2 & G3). split; [lia|]. split; [lia|]. intros w l H. apply H3, (G3 w l H). Qed.
  Lemma within_zero N A p : within 0 N A p -> within 0 0 A p.
  Proof. intros Hp q m Hm. destruct (Hp q m Hm) as (G1 & G2 & G3). split; [exact G1|]. split; [|exact G3]. destruct (random_jets m); [apply le_n|cbn in G1; lia]. Qed.
  Lemma within_nil c N A : within c N A [].
  Proof. intros q m []. Qed.
  Lemma within_one A : within 0 0 A pone.
  Proof. intros q m [H|[]]. injection H as <- <-. split; [apply le_n|]. split; [apply le_n|]. intros w l []. Qed.
  Lemma within_avs c N A p : within c N A p -> avs A p.
  Proof. intros H q m Hm a Ha. destruct a; try exact I. exact (proj2 (proj2 (H q m Hm)) w l Ha). Qed.
  Lemma rnd_mul c N c' N' A m m' : rnd c N A m -> rnd c' N' A m' -> rnd (c + c') (N + N') A (mmul m m').
  Proof.
    intros (G1 & G2 & G3) (K1 & K2 & K3). pose proof (random_mmul m m') as HP. split; [|split].
    - rewrite (Permutation_length HP), app_length. lia. - rewrite (jwt_perm _ _ HP), jwt_app. lia.
    - intros w l H. destruct (PKFCanon.mmul_in _ _ _ H) as [H'|H']; [exact (G3 w l H')|exact (K3 w l H')].
  Qed.
  Lemma within_mul c N c' N' A p q : within c N A p -> within c' N' A q -> within (c + c') (N + N') A (pmul p q).
  Proof. apply pmul_m. intros m m'. apply rnd_mul. Qed.
  Lemma within_mulm c N c' N' A x m p : rnd c N A m -> within c' N' A p -> within (c + c') (N + N') A (pmulm x m p).
  Proof. intros Hm. apply pmulm_m. intros m'. apply rnd_mul, Hm. Qed.
  Lemma rnd_det A (m : mono) : (forall a, In a m -> match a with AJet _ _ | AExp _ _ => False | _ => True end) -> rnd 0 0 A m.
  Proof.
    intros H. assert (E : random_jets m = []).
    { unfold random_jets. induction m as [|a m IH]; [reflexivity|]. cbn [flat_map]. rewrite IH by (intros; apply H; right; assumption).
      specialize (H a (or_introl eq_refl)). destruct a; try reflexivity. destruct H. }
    unfold rnd. rewrite E. split; [apply le_n|]. split; [apply le_n|]. intros w l Hl. destruct (H _ Hl).
  Qed.
  Lemma within_prod {X} (h : X -> poly) (cf Nf : X -> nat) A l : (forall x, In x l -> within (cf x) (Nf x) A (h x)) ->
    within (list_sum (map cf l)) (list_sum (map Nf l)) A (pprod (map h l)).
  Proof.
    unfold pprod. induction l as [|x l IH]; intros H; [apply within_one|]. cbn [map fold_right list_sum]. 
    apply within_mul; [apply H; left; reflexivity|apply IH; intros; apply H; right; assumption].
  Qed.

  Definition fc (f : fn) : nat := if is_random f then 1 else 0.
  Definition ac (a : atom) : nat := match a with AJet f _ => fc f | _ => 0 end.
  Definition ao (a : atom) : nat := match a with AJet f w => fc f * wt w | _ => 0 end.
  Lemma ac_sum m : list_sum (map ac m) = List.length (random_jets m).
  Proof.
    induction m as [|a m IH]; [reflexivity|]. cbn [map list_sum]. change (a :: m) with ([a] ++ m). rewrite random_app, app_length.
    change (list_sum (ac a :: map ac m)) with (ac a + list_sum (map ac m)). rewrite IH. f_equal. destruct a; try reflexivity. cbn. unfold fc. destruct (is_random f); reflexivity.
  Qed.
  Lemma ao_sum m : list_sum (map ao m) = jwt (random_jets m).
  Proof.
    induction m as [|a m IH]; [reflexivity|]. change (a :: m) with ([a] ++ m). rewrite random_app, jwt_app.
    change (list_sum (map ao ([a] ++ m))) with (ao a + list_sum (map ao m)). rewrite IH. f_equal. destruct a; try reflexivity. cbn. unfold fc. destruct (is_random f); cbn; lia.
  Qed.
  Lemma within_replace c N (A B : list jet -> Prop) (h : atom -> poly) p : within c N B p ->
    (forall a, (forall w l, a = AExp w l -> B l) -> within (ac a) (ao a) A (h a)) ->
    within c N A (psum (map (fun t => pscale (fst t) (pprod (map h (snd t)))) p)).
  Proof.
    intros Hp Hh. apply psum_m. intros q Hq. apply in_map_iff in Hq. destruct Hq as ([x m] & <- & Hm). cbn [fst snd]. apply pscale_m.
    destruct (Hp x m Hm) as (G1 & G2 & G3). apply (within_weaken (list_sum (map ac m)) (list_sum (map ao m)) c N A A); [rewrite ac_sum; exact G1|rewrite ao_sum; exact G2|auto|].
    apply within_prod. intros a Ha. apply Hh. intros w l ->. exact (G3 w l Ha).
  Qed.
  Lemma within_single f w A : within (fc f) (fc f * wt w) A [(1%Q, [AJet f w])].
  Proof.
    intros q m [H|[]]. injection H as <- <-. unfold rnd, fc. cbn. destruct (is_random f); cbn; (split; [lia|]; split; [lia|]); intros w' l [H|[]]; discriminate.
  Qed.
  Lemma within_jet f w A : within (fc f) (fc f * wt w) A (pjet f w).
  Proof.
    pose proof (within_single f w A) as D. destruct f; try exact D; unfold pjet.
    - destruct w; [|exact D]. intros q m [H|[]]. injection H as <- <-. apply rnd_det. intros a [<-|[<-|[]]]; exact I.
    - destruct (forallb _ w); [exact D|apply within_nil].
  Qed.
  Lemma within_atom a (A : list jet -> Prop) : (forall w l, a = AExp w l -> A l) -> within (ac a) (ao a) A (patom a).
  Proof.
    intros H. destruct a as [f w|w l| | | |]; try (intros q m [E|[]]; injection E as <- <-; apply rnd_det; intros a [<-|[]]; exact I).
    - exact (within_single f w A).
    - intros q m [E|[]]. injection E as <- <-. split; [apply le_n|]. split; [apply le_n|]. intros w' l' [E|[]]. injection E as <- <-. exact (H w l eq_refl).
  Qed.

  (** derivatives *)
  Lemma within_datom c a (A : list jet -> Prop) : (forall w l, a = AExp w l -> A l) -> within (ac a) (ao a + wt [c]) A (datom c a).
  Proof.
    intros H. assert (D : forall x j m, (forall a, In a m -> match a with AJet _ _ | AExp _ _ => False | _ => True end) -> within 0 (0 + wt [c]) A (pmulm x m (pjet (FVar j) [c]))).
    { intros x j m Hm. apply (within_weaken (0 + 0) (0 + 0) _ _ A); [lia|lia|auto|]. apply within_mulm; [apply rnd_det, Hm|exact (within_jet (FVar j) [c] A)]. }
    destruct a as [f w|w l| | |i|i]; cbn [datom ac ao]; try apply within_nil.
    - apply (within_weaken (fc f) (fc f * wt (winsert c w)) _ _ A); [lia| |auto|apply within_jet]. rewrite wt_winsert. unfold fc. destruct (is_random f); lia.
    - intros q m [E|[]]. injection E as <- <-. split; [apply le_n|]. split; [apply Nat.le_0_l|]. intros w' l' [E|[]]. injection E as _ <-. exact (H w l eq_refl).
    - apply D. intros b [<-|[]]; exact I.
    - apply D. intros b [<-|[<-|[<-|[]]]]; exact I.
  Qed.
  Lemma within_dmono c (A : list jet -> Prop) m : (forall w l, In (AExp w l) m -> A l) -> within (List.length (random_jets m)) (jwt (random_jets m) + wt [c]) A (dmono c m).
  Proof.
    induction m as [|a r IH]; intros H; cbn [dmono]; [apply within_nil|].
    assert (Ha : forall w l, a = AExp w l -> A l) by (intros w l ->; apply (H w l); left; reflexivity).
    assert (Hr : forall w l, In (AExp w l) r -> A l) by (intros w l Hl; apply (H w l); right; exact Hl).
    change (a :: r) with ([a] ++ r). rewrite random_app, app_length, jwt_app.
    assert (E1 : List.length (random_jets [a]) = ac a) by (rewrite <- ac_sum; cbn; lia).
    assert (E2 : jwt (random_jets [a]) = ao a) by (rewrite <- ao_sum; cbn; lia). apply padd_m.
    - eapply (within_weaken _ _ _ _ A A); [| | |apply (within_mulm (List.length (random_jets r)) (jwt (random_jets r))); [|apply within_datom, Ha]]; auto; try lia.
      split; [apply le_n|]. split; [apply le_n|exact Hr].
    - eapply (within_weaken _ _ _ _ A A); [| | |apply (within_mulm (ac a) (ao a)); [|apply IH, Hr]]; auto; try lia.
      split; [rewrite E1; apply le_n|]. split; [rewrite E2; apply le_n|]. intros w l [->|[]]. exact (Ha w l eq_refl).
  Qed.
  Lemma within_deriv c n N A p : within n N A p -> within n (N + wt [c]) A (pderiv c p).
  Proof.
    intros Hp. unfold pderiv. induction p as [|[q m] p IH]; cbn [fold_right]; [apply within_nil|].
    apply padd_m; [apply pscale_m|apply IH; intros x y H; apply (Hp x y); right; exact H]. cbn [snd].
    destruct (Hp q m (or_introl eq_refl)) as (G1 & G2 & G3). apply (within_weaken (List.length (random_jets m)) (jwt (random_jets m) + wt [c]) n _ A A); auto; [lia|]. apply within_dmono, G3.
  Qed.
  Lemma within_derivs w n N A p : within n N A p -> within n (N + wt w) A (pderivs w p).
  Proof.
    intros Hp. unfold pderivs. induction w as [|c w IH]; cbn [fold_right]; [cbn [wt]; rewrite Nat.add_0_r; exact Hp|].
    apply (within_weaken n (N + wt w + wt [c]) n _ A A); auto; [cbn [wt]; lia|]. apply within_deriv, IH.
  Qed.

  (** averages *)
  Lemma within_expect c N (A B : list jet -> Prop) p : within c N B p -> (forall l, B l -> A l) ->
    (forall l, l <> [] -> List.length l <= c -> jwt l <= N -> A l) -> within 0 0 A (expect p).
  Proof.
    intros Hp HB HA. apply psum_m. intros q Hq. apply in_map_iff in Hq. destruct Hq as ([x m] & <- & Hm). cbn [fst snd].
    destruct (Hp x m Hm) as (G1 & G2 & G3). apply (within_mulm 0 0 0 0 A).
    - assert (E : random_jets (det_part m) = []).
      { unfold random_jets, det_part. clear. induction m as [|a m IH]; [reflexivity|]. cbn [filter]. destruct a; cbn [flat_map app]; try exact IH.
        destruct (is_random f) eqn:Hf; cbn [negb]; [exact IH|]. cbn [flat_map]. rewrite Hf. exact IH. }
      unfold rnd. rewrite E. split; [apply le_n|]. split; [apply le_n|]. intros w l H. apply filter_In in H. apply HB, (G3 w l), H.
    - destruct (random_jets m) as [|[f w] [|j l]] eqn:E; cbn [expect_jets].
      + apply within_one.
      + intros y m' [H|[]]. injection H as <- <-. split; [apply le_n|]. split; [apply le_n|]. intros w' l' [H|[]]. injection H as _ <-. apply HA; [discriminate|exact G1|apply Nat.le_0_l].
      + intros y m' [H|[]]. injection H as <- <-. split; [apply le_n|]. split; [apply le_n|]. intros w' l' [H|[]]. injection H as _ <-. apply HA; [discriminate|exact G1|exact G2].
  Qed.

  (** substitutions *)
  Lemma within_psubst (g : fn -> word -> poly) c N (A B : list jet -> Prop) p : within c N B p ->
    (forall f w, within (fc f) (fc f * wt w) A (g f w)) ->
    (forall l l', B l -> l' <> [] -> List.length l' <= List.length l -> jwt l' <= jwt l -> A l') -> within c N A (psubst g p).
  Proof.
    intros Hp Hg HA. unfold psubst. apply (within_replace c N A B); [exact Hp|]. intros a Ha.
    destruct a as [f w|w l| | |i|i]; cbn [asubst]; try (apply within_atom; intros w l H; discriminate).
    - apply Hg.
    - cbn [ac ao]. apply (within_zero (0 + wt w)), within_derivs.
      apply (within_expect (List.length l) (jwt l) A A); [|auto|intros l'; apply (HA l), (Ha w l eq_refl)].
      apply (within_weaken (list_sum (map (fun j : jet => fc (fst j)) l)) (list_sum (map (fun j : jet => fc (fst j) * wt (snd j)) l)) _ _ A A).
      + clear. induction l as [|j l IH]; [apply le_n|]. cbn [map list_sum List.length]. change (fc (fst j) + list_sum (map (fun j : jet => fc (fst j)) l) <= S (List.length l)).
        unfold fc at 1. destruct (is_random (fst j)); lia.
      + clear. induction l as [|j l IH]; [apply le_n|]. cbn [map list_sum jwt fold_right].
        change (fc (fst j) * wt (snd j) + list_sum (map (fun j : jet => fc (fst j) * wt (snd j)) l) <= wt (snd j) + jwt l).
        unfold fc at 1. destruct (is_random (fst j)); lia.
      + auto.
      + apply within_prod. intros j _. apply Hg.
  Qed.
  Lemma within_sub_fn f v c N (A B : list jet -> Prop) p : within (fc f) 0 A v -> within c N B p ->
    (forall l l', B l -> l' <> [] -> List.length l' <= List.length l -> jwt l' <= jwt l -> A l') -> within c N A (sub_fn f v p).
  Proof.
    intros Hv Hp HA. unfold sub_fn. apply (within_psubst _ c N A B); auto. intros h w. destruct (fn_eq_dec h f) as [->|]; [|apply within_jet].
    unfold fc in *. destruct (is_random f).
    - apply (within_weaken 1 (0 + wt w) _ _ A A); auto; [lia|]. apply within_derivs, Hv.
    - apply (within_zero (0 + wt w)), within_derivs, Hv.
  Qed.
  Lemma within_sub_trend f v c N (A B : list jet -> Prop) p : within (fc f) (fc f * k) A v -> within c N B p ->
    (forall l l', B l -> l' <> [] -> List.length l' <= List.length l -> jwt l' <= jwt l -> A l') -> within c N A (sub_trend f v p).
  Proof.
    intros Hv Hp HA. unfold sub_trend. apply (within_psubst _ c N A B); auto. intros h w. destruct (fn_eq_dec h f) as [->|]; [|apply within_jet].
    destruct (wremove "t" w) as [w'|] eqn:E; [|apply within_jet]. apply wt_remove in E. unfold fc in *. destruct (is_random f).
    - apply (within_weaken 1 (1 * k + wt w') _ _ A A); auto; [lia|]. apply within_derivs, Hv.
    - apply (within_zero (0 * k + wt w')), within_derivs, Hv.
  Qed.
  (** averages that stay averages of this kind when factors are replaced *)
  Definition steady (A : list jet -> Prop) : Prop :=
    forall l l', A l -> l' <> [] -> List.length l' <= List.length l -> jwt l' <= jwt l -> A l'.
  Lemma within_sub_fns d c N A : steady A -> forall p, (forall f v, In (f, v) d -> within (fc f) 0 A v) -> within c N A p -> within c N A (sub_fns d p).
  Proof.
    intros HA. unfold sub_fns. induction d as [|[f v] d IH]; intros p Hd Hp; cbn [fold_left]; [exact Hp|].
    apply IH; [intros; apply Hd; right; assumption|]. apply (within_sub_fn f v c N A A); auto. apply Hd. left. reflexivity.
  Qed.
  Lemma within_sub_trends d c N A : steady A -> forall p, (forall f v, In (f, v) d -> within (fc f) (fc f * k) A v) -> within c N A p -> within c N A (sub_trends d p).
  Proof.
    intros HA. unfold sub_trends. induction d as [|[f v] d IH]; intros p Hd Hp; cbn [fold_left]; [exact Hp|].
    apply IH; [intros; apply Hd; right; assumption|]. apply (within_sub_trend f v c N A A); auto. apply Hd. left. reflexivity.
  Qed.
  Definition pairs (N : nat) (l : list jet) : Prop := List.length l <= 2 /\ jwt l <= N.
  Lemma pairs_steady N : steady (pairs N).
  Proof. intros l l' [H1 H2] _ H3 H4. split; lia. Qed.
  Lemma none_steady : steady (fun _ => False).
  Proof. intros l l' []. Qed.

  (** the time derivative of an averaged product of two *)
  Lemma within_pair f g w w' : is_random f = true -> is_random g = true ->
    within 0 0 (pairs (wt w + wt w' + k)) (expect (pderiv "t" (pmul (pjet f w) (pjet g w')))).
  Proof.
    intros Hf Hg. apply (within_expect 2 (wt w + wt w' + wt ["t"]) _ (fun _ => False)); [| intros l [] |].
    - apply within_deriv. pose proof (within_jet f w (fun _ => False)) as H1. pose proof (within_jet g w' (fun _ => False)) as H2.
      unfold fc in H1, H2. rewrite Hf in H1. rewrite Hg in H2. apply (within_weaken (1 + 1) (1 * wt w + 1 * wt w') _ _ _ _ _) with (3 := fun l H => H) (4 := within_mul _ _ _ _ _ _ _ H1 H2); lia.
    - intros l _ H1 H2. split; [exact H1|]. cbn [wt] in H2. destruct (string_dec "t" "t"); [lia|congruence].
  Qed.

  (** replacing averages *)
  Lemma avs_kept (A : list jet -> Prop) d : forall p, (forall l v, In (l, v) d -> A l -> avs A v) -> avs A p -> avs A (sub_exps d p).
  Proof.
    unfold sub_exps. induction d as [|[l v] d IH]; intros p Hd Hp; cbn [fold_left]; [exact Hp|].
    apply IH; [intros l' v' H; apply (Hd l' v'); right; exact H|]. cbn [fst snd]. unfold sub_exp.
    apply (replace_all (av A)); [exact Hp|]. intros a Ha. destruct a as [f w|w l'| | | |]; try (apply patom_all; exact Ha).
    destruct (jets_eq_dec l' l) as [->|]; [|apply patom_all; exact Ha]. apply avs_derivs, (Hd l v); [left; reflexivity|exact Ha].
  Qed.
End Degree.
