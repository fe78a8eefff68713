(** Objects SymbolicPKF answer as if they remembered nothing. *)
From Coq Require Import List Arith ZArith QArith Bool String Permutation Lia.
From Verif Require Import PyBase PyBaseFacts PartialOrderModel TreeModel TreeProps PKFModel PKFSpec PKFAlg PKFAtoms PKFClosure PKFProofs PKFInv PKFShape
  PKFObjModel PKFObjSpec.
Import ListNotations.
Close Scope Q_scope.
Close Scope Z_scope.
Open Scope nat_scope.
Open Scope string_scope.
Open Scope list_scope.

Lemma nth_set_nth {A} i j (v d : A) l : nth j (set_nth i v l) d = if Nat.eqb i j then (if Nat.ltb i (List.length l) then v else nth j l d) else nth j l d.
Proof.
  revert i j. induction l as [|x l IH]; intros i j; cbn [set_nth List.length].
  - replace (set_nth i v []) with (@nil A) by (destruct i; reflexivity). destruct (Nat.eqb i j); [|reflexivity]. destruct (Nat.ltb_spec i 0); [lia|reflexivity].
  - destruct i, j; cbn [set_nth nth Nat.eqb]; try reflexivity. rewrite IH. destruct (Nat.eqb i j); [|reflexivity].
    destruct (Nat.ltb_spec i (List.length l)), (Nat.ltb_spec (S i) (S (List.length l))); try lia; reflexivity.
Qed.

Section Object.
  Variables (enum : list mi -> list mi) (enumD : tdict -> tdict) (enumC : edict -> edict)
            (enumF : list (fn * poly) -> list (fn * poly)) (enumU : list fn -> list fn).
  Variables (coords : list string) (eqs : list poly) (closure : edict).
  Hypothesis HR : rearrangements enum enumD enumC enumF enumU.
  Hypothesis Hcoords : NoDup coords.
  Hypothesis Hne : coords <> [].
  Hypothesis HU : user_system eqs.
  Let Henum := proj1 HR.
  Let HenumD := proj1 (proj2 HR).
  Let HenumC := proj1 (proj2 (proj2 HR)).
  Let HenumF := proj1 (proj2 (proj2 (proj2 HR))).
  Let HenumU := proj2 (proj2 (proj2 (proj2 HR))).

  Definition is {A} (o : option A) (r : res A) : Prop := forall v, o = Some v -> r = Ok v.
  Lemma is_none {A} (r : res A) : is None r. Proof. intros v H. discriminate. Qed.
  Lemma is_some {A} (v : A) r : r = Ok v -> is (Some v) r. Proof. intros H v' [= <-]. exact H. Qed.

  Definition fok (i : nat) (f : fstate) : Prop :=
    (exists h, f_tree f = tree_calls enum enumD true coords tree_init h) /\ is (f_closure f) (field_closure enum coords i).
  Variable Pc : option psystem -> Prop.
  Record coh (s : pstate) : Prop := mkCoh {
    c_rey : is (s_reynolds s) (Ok (first_order_reynolds enumF eqs, second_order_reynolds enumF eqs));
    c_exp : is (s_expectation s) (expectation_system enum enumC enumF coords eqs);
    c_tl : is (s_tl s) (tl_expectation_system enum enumC enumF coords eqs);
    c_err : is (s_error s) (error_system enum enumC enumF coords eqs);
    c_var : is (s_variance s) (variance_system enum enumD enumC enumF enumU coords eqs);
    c_eps : is (s_epsilon s) (epsilon_system enum enumD enumC enumF enumU coords eqs);
    c_cov : Pc (s_covariance s);
    c_met : is (s_metric s) (metric_system enum enumD enumC enumF enumU coords eqs);
    c_im : is (s_in_metric s) (in_metric enum enumD enumC enumF enumU coords eqs closure);
    c_id : is (s_in_diffusion s) (in_diffusion enum enumD enumC enumF enumU coords eqs closure);
    c_ia : is (s_in_aspect s) (in_aspect enum enumD enumC enumF enumU coords eqs closure);
    c_int : is (s_internal s) (internal_closure enum coords eqs);
    c_fld : forall i, fok i (nth i (s_fields s) f_init) }.
  Definition gives {A} (m : M A) (r : res A) : Prop := forall s, coh s -> fst (m s) = r /\ coh (snd (m s)).

  Lemma gives_ret {A} (a : A) : gives (ret a) (Ok a).
  Proof. intros s Hs. split; [reflexivity|exact Hs]. Qed.
  Lemma gives_lift {A} (r : res A) : gives (lift r) r.
  Proof. intros s Hs. split; [reflexivity|exact Hs]. Qed.
  Lemma gives_raise {A} e : gives (raise e : M A) (Err e).
  Proof. intros s Hs. split; [reflexivity|exact Hs]. Qed.
  Lemma gives_bind {A B} (m : M A) r (k : A -> M B) f : gives m r -> (forall a, r = Ok a -> gives (k a) (f a)) -> gives (bindM m k) (bind r f).
  Proof.
    intros H1 H2 s Hs. destruct (H1 s Hs) as [E Hc]. unfold bindM. destruct (m s) as [r' s'] eqn:Em. cbn [fst snd] in *. subst r'.
    destruct r as [a|e]; cbn [bind]; [apply (H2 a eq_refl s' Hc)|]. split; [reflexivity|exact Hc].
  Qed.
  Lemma gives_eq {A} (m : M A) r r' : gives m r -> r = r' -> gives m r'.
  Proof. intros H <-. exact H. Qed.
  Lemma gives_memo {A} get set (m : M A) r : (forall s, coh s -> is (get s) r) -> (forall s v, coh s -> r = Ok v -> coh (set v s)) -> gives m r -> gives (memo get set m) r.
  Proof.
    intros H1 H2 H3 s Hs. unfold memo. destruct (get s) as [v|] eqn:E.
    - split; [symmetry; exact (H1 s Hs v E)|exact Hs].
    - destruct (H3 s Hs) as [E1 Hc]. destruct (m s) as [r' s'] eqn:Em. cbn [fst snd] in *. subst r'.
      destruct r as [v|e]; (split; [reflexivity|]); [apply H2; auto|exact Hc].
  Qed.
  Lemma gives_mapS {A B} (f : A -> M B) g l : (forall a, In a l -> gives (f a) (g a)) -> gives (mapS f l) (mapM g l).
  Proof.
    induction l as [|a l IH]; intros H; [apply gives_ret|]. cbn [mapS mapM].
    apply gives_bind; [apply H; left; reflexivity|]. intros b _. apply gives_bind; [apply IH; intros x Hx; apply H; right; exact Hx|].
    intros bs _. apply gives_ret.
  Qed.
  Lemma gives_foldS {A B} (f : B -> A -> M B) g l : (forall b a, In a l -> gives (f b a) (g b a)) -> forall b, gives (foldS f b l) (foldM g b l).
  Proof.
    induction l as [|a l IH]; intros H b; [apply gives_ret|]. cbn [foldS foldM].
    apply gives_bind; [apply H; left; reflexivity|]. intros b' _. apply IH. intros b1 x Hx. apply H. right. exact Hx.
  Qed.
  Lemma internal_Ok : exists cl, internal_closure enum coords eqs = Ok cl.
  Proof. destruct (internal_ok enum no_tensor coords eqs) as (cl & H & _); auto. exists cl. exact H. Qed.

  (** *** internal_closure *)
  Definition loose (s : pstate) : Prop := coh (mkS (s_reynolds s) (s_expectation s) (s_tl s) (s_error s) (s_variance s) (s_epsilon s) (s_covariance s)
    (s_metric s) (s_in_metric s) (s_in_diffusion s) (s_in_aspect s) None (s_fields s)).
  Lemma loose_set d s : loose (set_internal d s) <-> loose s. Proof. destruct s. reflexivity. Qed.
  Lemma coh_loose s : coh s -> loose s.
  Proof. intros []. constructor; auto. cbn. apply is_none. Qed.
  Lemma loose_coh d s : internal_closure enum coords eqs = Ok d -> loose s -> s_internal s = Some d -> coh s.
  Proof. intros H [] E. constructor; auto. rewrite E. apply is_some, H. Qed.
  Lemma fok_set i f s : fok i f -> (forall j, fok j (nth j (s_fields s) f_init)) -> forall j, fok j (nth j (set_nth i f (s_fields s)) f_init).
  Proof.
    intros Hf Hs j. rewrite nth_set_nth. destruct (Nat.eqb_spec i j) as [<-|]; [|apply Hs]. destruct (Nat.ltb i _); [exact Hf|apply Hs].
  Qed.
  Lemma field_closure_step i s d : field_closure enum coords i = Ok d -> loose s ->
    exists s', m_field_closure enum coords i s = (Ok d, s') /\ loose s' /\ s_internal s' = s_internal s.
  Proof.
    intros Hd Hs. unfold m_field_closure. pose proof (c_fld _ Hs i) as [Ht Hc]. cbn [s_fields] in *. destruct (f_closure (nth i (s_fields s) f_init)) as [d'|] eqn:E.
    - rewrite (Hc d' eq_refl) in Hd. apply Ok_inj in Hd. subst d'. exists s. auto.
    - rewrite Hd. eexists. split; [reflexivity|]. split; [|reflexivity]. destruct Hs. constructor; auto. cbn. apply fok_set; [|exact c_fld0].
      split; [exact Ht|]. cbn. apply is_some, Hd.
  Qed.
  Lemma fields_loop l : forall s ds d0, mapM (field_closure enum coords) l = Ok ds -> loose s -> s_internal s = Some d0 ->
    exists s' us, mapS (fun i => bindM (m_field_closure enum coords i) (fun d => store (fun s => set_internal (dupdate (stored s) d) s))) l s = (Ok us, s')
      /\ loose s' /\ s_internal s' = Some (fold_left dupdate ds d0).
  Proof.
    induction l as [|i l IH]; intros s ds d0 Hds Hs E; cbn [mapM] in Hds.
    - apply Ok_inj in Hds. subst ds. exists s, []. cbn. auto.
    - destruct (field_closure enum coords i) as [d|] eqn:Hd; cbn [bind] in Hds; [|discriminate].
      destruct (mapM (field_closure enum coords) l) as [ds'|] eqn:Hds'; cbn [bind] in Hds; [|discriminate]. apply Ok_inj in Hds. subst ds.
      destruct (field_closure_step i s d Hd Hs) as (s1 & E1 & L1 & I1). cbn [mapS]. unfold bindM at 1. unfold bindM at 1. rewrite E1. unfold store at 1.
      destruct (IH (set_internal (dupdate (stored s1) d) s1) ds' (dupdate d0 d) eq_refl) as (s2 & us & E2 & L2 & I2).
      { apply loose_set, L1. } { cbn. unfold stored. rewrite I1, E. reflexivity. }
      unfold bindM at 1. rewrite E2. unfold ret. exists s2, (tt :: us). cbn [fold_left]. auto.
  Qed.
  Lemma couples_loop l : forall s d0, loose s -> s_internal s = Some d0 ->
    exists s' us, mapS (fun ij => let '(i, j) := ij in
                bindM (store (fun s => set_internal (dset jets_eq_dec (jkey [(FErr i, []); (FErr j, [])]) (pfn (FCov i j)) (stored s)) s)) (fun _ =>
                store (fun s => set_internal (dset jets_eq_dec (jkey [(FEps i, []); (FEps j, [])])
                                                   (pmulm 1 [AIsig i; AIsig j] (pfn (FCov i j))) (stored s)) s))) l s = (Ok us, s')
      /\ loose s' /\ s_internal s' = Some (fold_left cov_step l d0).
  Proof.
    induction l as [|[i j] l IH]; intros s d0 Hs E; [exists s, []; cbn; auto|]. cbn [mapS]. unfold bindM at 1. unfold bindM at 1. unfold store at 1. unfold store at 1.
    match goal with |- context [bindM _ _ ?S] => destruct (IH S (cov_step d0 (i, j))) as (s2 & us & E2 & L2 & I2) end.
    { rewrite !loose_set. exact Hs. } { cbn. unfold stored. rewrite E. reflexivity. }
    unfold bindM at 1. rewrite E2. exists s2, (tt :: us). cbn [fold_left]. auto.
  Qed.
  Lemma gives_internal : gives (m_internal enum coords eqs) (internal_closure enum coords eqs).
  Proof.
    intros s Hs. unfold m_internal. destruct (s_internal s) as [d|] eqn:E.
    { split; [symmetry; exact (c_int s Hs d E)|exact Hs]. }
    destruct internal_Ok as (cl & Hcl). pose proof Hcl as Hcl'. unfold internal_closure in Hcl.
    destruct (mapM (field_closure enum coords) (fields eqs)) as [ds|] eqn:Hds; cbn [bind] in Hcl; [|discriminate]. apply Ok_inj in Hcl.
    change (fold_left _ (couples eqs) (fold_left dupdate ds [])) with (fold_left cov_step (couples eqs) (fold_left dupdate ds [])) in Hcl.
    destruct (fields_loop (fields eqs) (set_internal [] s) ds [] Hds) as (s1 & us & E1 & L1 & I1); [apply loose_set, coh_loose, Hs|reflexivity|].
    destruct (couples_loop (couples eqs) s1 _ L1 I1) as (s2 & us' & E2 & L2 & I2).
    match goal with |- fst ?x = _ /\ _ => assert (G : x = (Ok cl, s2)) end.
    { unfold bindM at 1. unfold store at 1. unfold bindM at 1. rewrite E1. unfold bindM at 1. rewrite E2. unfold stored. rewrite I2, Hcl. reflexivity. }
    rewrite G. cbn [fst snd]. split; [symmetry; exact Hcl'|]. rewrite Hcl in I2. exact (loose_coh cl s2 Hcl' L2 I2).
  Qed.
  Lemma gives_closed {A B} (f : A -> edict -> B) cl l : internal_closure enum coords eqs = Ok cl ->
    gives (mapS (fun a => bindM (m_internal enum coords eqs) (fun cl => ret (f a cl))) l) (Ok (map (fun a => f a cl) l)).
  Proof.
    intros H. eapply gives_eq; [apply (gives_mapS _ (fun a => cl <- internal_closure enum coords eqs ;; Ok (f a cl)))|].
    - intros a _. apply gives_bind; [apply gives_internal|]. intros d _. apply gives_ret.
    - rewrite H. cbn [bind]. apply (mapM_Ok _ (fun a => f a cl)). intros a _. reflexivity.
  Qed.

  (** *** the systems *)
  Ltac cache := intros ?s ?v [] ?Hv; constructor; auto; cbn; apply is_some; exact Hv.
  Lemma gives_reynolds : gives (m_reynolds enumF eqs) (Ok (first_order_reynolds enumF eqs, second_order_reynolds enumF eqs)).
  Proof. apply gives_memo; [intros s; apply c_rey|cache|apply gives_ret]. Qed.
  Lemma gives_first : gives (m_first enumF eqs) (Ok (first_order_reynolds enumF eqs)).
  Proof. eapply gives_eq; [apply gives_bind; [apply gives_reynolds|intros r _; apply (gives_ret (fst r))]|reflexivity]. Qed.
  Lemma gives_second : gives (m_second enumF eqs) (Ok (second_order_reynolds enumF eqs)).
  Proof. eapply gives_eq; [apply gives_bind; [apply gives_reynolds|intros r _; apply (gives_ret (snd r))]|reflexivity]. Qed.
  Lemma gives_expectation : gives (m_expectation enum enumC enumF coords eqs) (expectation_system enum enumC enumF coords eqs).
  Proof.
    apply gives_memo; [intros s; apply c_exp|cache|]. destruct internal_Ok as (cl & Hcl).
    eapply gives_eq; [apply gives_bind; [apply gives_second|]|].
    - intros qs _. apply (gives_closed (fun q cl => on_eq (sub_exps (enumC cl)) (on_eq (sub_fns (enumF (subs_error eqs))) (on_eq expect q))) cl _ Hcl).
    - unfold expectation_system. rewrite Hcl. reflexivity.
  Qed.
  Lemma gives_tl : gives (m_tl enum enumC enumF coords eqs) (tl_expectation_system enum enumC enumF coords eqs).
  Proof.
    apply gives_memo; [intros s; apply c_tl|cache|]. destruct internal_Ok as (cl & Hcl).
    eapply gives_eq; [apply gives_bind; [apply gives_first|]|].
    - intros qs _. apply (gives_closed (fun q cl => on_eq (sub_exps (enumC cl)) (on_eq expect q)) cl _ Hcl).
    - unfold tl_expectation_system. rewrite Hcl. reflexivity.
  Qed.
  Lemma gives_error : gives (m_error enum enumC enumF coords eqs) (error_system enum enumC enumF coords eqs).
  Proof.
    apply gives_memo; [intros s; apply c_err|cache|]. eapply gives_eq; [apply gives_bind; [apply gives_first|]|].
    - intros fs _. apply gives_bind; [apply gives_tl|]. intros tl _.
      apply (gives_ret (map (fun qr : pequation * pequation => (psub (fst (fst qr)) (fst (snd qr)), psub (snd (fst qr)) (snd (snd qr)))) (combine fs tl))).
    - reflexivity.
  Qed.
  Lemma gives_tree i k : gives (m_tree enum enumD coords i k) (fst (tree_call enum enumD true coords tree_init (Some k))).
  Proof.
    intros s Hs. unfold m_tree. destruct (c_fld s Hs i) as [(h & Ht) Hc].
    pose proof (C41_history_independent enum enumD true coords Henum HenumD Hcoords Hne h k) as E. rewrite <- Ht in E.
    destruct (tree_call enum enumD true coords (f_tree (nth i (s_fields s) f_init)) (Some k)) as [r t] eqn:Ec. cbn [fst snd] in *. split; [exact E|].
    destruct Hs. constructor; auto. cbn. apply fok_set; [|exact c_fld0]. split; [|exact Hc]. exists (h ++ [Some k]). cbn [f_tree].
    unfold tree_calls in *. rewrite fold_left_app. cbn [fold_left]. rewrite <- Ht, Ec. reflexivity.
  Qed.
  Lemma gives_closed_tree cl i k : internal_closure enum coords eqs = Ok cl ->
    gives (m_closed_tree enum enumD enumC coords eqs i k) (closed_tree enum enumD enumC coords cl i k).
  Proof.
    intros Hcl. unfold m_closed_tree, closed_tree. apply gives_bind; [apply gives_tree|]. intros d _.
    apply (gives_closed (fun kv cl => (tree_key coords i (fst kv), sub_exps (enumC cl) (tree_value coords i (snd kv)))) cl _ Hcl).
  Qed.
  Lemma gives_apply p : gives (m_apply enum enumD enumC enumU coords eqs p) (apply_internal_closure enum enumD enumC enumU coords eqs p).
  Proof.
    destruct internal_Ok as (cl & Hcl). unfold m_apply, apply_internal_closure. rewrite Hcl. cbn [bind].
    destruct (existsb _ _); [apply gives_raise|]. apply gives_bind.
    - apply gives_foldS. intros b f _. destruct (field_of eqs f) as [i|]; [|apply gives_raise].
      apply gives_bind; [apply gives_lift|]. intros ns _. apply gives_bind; [apply gives_closed_tree, Hcl|]. intros t _. apply gives_ret.
    - intros b _. eapply gives_eq; [apply gives_bind; [apply gives_internal|]|]; [intros d _; apply (gives_ret (sub_exps (enumC d) b))|]. rewrite Hcl. reflexivity.
  Qed.
  Lemma gives_variance : gives (m_variance enum enumD enumC enumF enumU coords eqs) (variance_system enum enumD enumC enumF enumU coords eqs).
  Proof.
    apply gives_memo; [intros s; apply c_var|cache|]. apply gives_bind; [apply gives_error|]. intros es _. apply gives_bind; [apply gives_lift|]. intros tr _.
    apply gives_mapS. intros i _. unfold variance_equation. apply gives_bind; [apply gives_apply|]. intros r _. apply gives_ret.
  Qed.
  Lemma gives_epsilon : gives (m_epsilon enum enumD enumC enumF enumU coords eqs) (epsilon_system enum enumD enumC enumF enumU coords eqs).
  Proof.
    apply gives_memo; [intros s; apply c_eps|cache|]. apply gives_bind; [apply gives_error|]. intros es _. apply gives_bind; [apply gives_lift|]. intros tr _.
    apply gives_bind; [apply gives_variance|]. intros vs _. apply gives_bind; [apply gives_lift|]. intros vt _. apply gives_ret.
  Qed.
  Lemma gives_metric : gives (m_metric enum enumD enumC enumF enumU coords eqs) (metric_system enum enumD enumC enumF enumU coords eqs).
  Proof.
    apply gives_memo; [intros s; apply c_met|cache|]. apply gives_bind; [apply gives_epsilon|]. intros es _. apply gives_bind; [apply gives_lift|]. intros tr _.
    apply gives_mapS. intros [i [a b]] _. unfold metric_equation. apply gives_bind; [apply gives_apply|]. intros r _. apply gives_ret.
  Qed.
End Object.
