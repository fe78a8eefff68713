(** The expansion of a right-hand side is the code of its tangent linear right-hand side. *)
From Coq Require Import List Arith ZArith QArith Qreals Reals String Lia Lra Permutation FunctionalExtensionality.
From Verif Require Import PyBase PyBaseFacts Scalars FieldFacts SymModel RandomProofs PDEModel StrModel CodegenModel CodegenSpec CodegenProofs CodegenRun CodegenProps
  FDExprModel FDExprSpec FDExprProofs FDSpec FDReal GridModel GridSpec GridProofs GridMore ConsistSpec ConsistModel ConsistProofs ConsistMain
  ForecastModel ForecastSpec SchemesModel SchemesSpec EnsembleProofs ModelProofs LineModel TangentSpec TangentProofs TangentSysSpec TangentSysProofs.
Import ListNotations.
Close Scope Q_scope.
Open Scope nat_scope.
Open Scope string_scope.
Open Scope list_scope.
Open Scope R_scope.

(** ** the position of a function *)
Fixpoint index_of (f : sx) (l : list sx) : option nat :=
  match l with [] => None | y :: r => if sx_eq_dec f y then Some O else option_map S (index_of f r) end.
Lemma index_of_None f l : index_of f l = None <-> ~ In f l.
Proof.
  induction l as [|y l IH]; cbn; [split; [intros _ []|reflexivity]|]. destruct (sx_eq_dec f y) as [->|N].
  - split; [discriminate|]. intros H. exfalso. apply H. left. reflexivity.
  - destruct (index_of f l) as [n|]; cbn.
    + split; [discriminate|]. intros H. assert (Q : Some n = None) by (apply IH; intros Hf; apply H; right; exact Hf). discriminate.
    + split; [|reflexivity]. intros _ [E|E]; [congruence|]. exact (proj1 IH eq_refl E).
Qed.
Lemma list_ext {A} (l l' : list A) : (forall k, nth_error l k = nth_error l' k) -> l = l'.
Proof.
  revert l'. induction l as [|x l IH]; intros [|y l'] H; [reflexivity|specialize (H O); discriminate|specialize (H O); discriminate|].
  f_equal; [specialize (H O); injection H as ->; reflexivity|]. apply IH. intros k. exact (H (S k)).
Qed.
Lemma index_of_nth f l k : NoDup l -> nth_error l k = Some f -> index_of f l = Some k.
Proof.
  revert k. induction l as [|y l IH]; intros [|k] ND H; cbn in *; try discriminate.
  - injection H as ->. destruct (sx_eq_dec f f); [reflexivity|contradiction].
  - inversion ND; subst. destruct (sx_eq_dec f y) as [->|N]; [exfalso; apply H2; eapply nth_error_In; eauto|]. rewrite (IH k); auto.
Qed.
Lemma index_of_Some f l k : index_of f l = Some k -> nth_error l k = Some f.
Proof.
  revert k. induction l as [|y l IH]; intros k H; cbn in H; [discriminate|]. destruct (sx_eq_dec f y) as [->|N]; [injection H as <-; reflexivity|].
  destruct (index_of f l) as [m|]; [|discriminate]. cbn in H. injection H as <-. cbn. auto.
Qed.
Lemma index_of_app f l l' : index_of f (l ++ l') = match index_of f l with Some k => Some k | None => option_map (fun k => (List.length l + k)%nat) (index_of f l') end.
Proof.
  induction l as [|y l IH]; cbn; [destruct (index_of f l'); reflexivity|]. destruct (sx_eq_dec f y); [reflexivity|]. rewrite IH.
  destruct (index_of f l); [reflexivity|]. destruct (index_of f l'); reflexivity.
Qed.

Section Means.
  Variables (coords : list string) (shape : list nat) (g : @grid RF) (rpow : R -> R -> R) (kappa : sx -> R) (cst : sx -> list nat -> R).
  Hypothesis LS : List.length shape = List.length coords.
  Hypothesis POW : forall a n, rpow a (INR n) = a ^ n.
  Notation arrs := (list nat -> R).
  Notation MN rho delta e := (mean (list nat -> R) a_num a_add a_mul (a_pow rpow) (fun _ => 0) (fun _ => 1) rho (fun c _ => kappa c) delta e).
  Notation ST := (sten coords shape g).

  Lemma mean_add rho delta l js : MN rho delta (SAdd l) js = fold_right Rplus 0 (map (fun x => MN rho delta x js) l).
  Proof. cbn [mean]. induction l as [|x l IH]; [reflexivity|]. cbn [map fold_right]. unfold a_add at 1. rewrite IH. reflexivity. Qed.
  Lemma mean_mul rho delta l js : MN rho delta (SMul l) js = fold_right Rmult 1 (map (fun x => MN rho delta x js) l).
  Proof. cbn [mean]. induction l as [|x l IH]; [reflexivity|]. cbn [map fold_right]. unfold a_mul at 1. rewrite IH. reflexivity. Qed.
  Lemma mean_pow rho delta b x js : MN rho delta (SPow b x) js = rpow (MN rho delta b js) (MN rho delta x js).
  Proof. reflexivity. Qed.

  Lemma mean_agree rho1 rho2 (delta1 delta2 : list (string * nat) -> arrs -> arrs) js e :
    (forall y, In y (subterms e) -> rho1 y js = rho2 y js) ->
    (forall f v, In (SDer f v) (subterms e) -> delta1 v (rho1 f) js = delta2 v (rho2 f) js) ->
    MN rho1 delta1 e js = MN rho2 delta2 e js.
  Proof.
    induction e as [q|k s|f l IH|e IH|e v IH|e l IH IH'|l IH|l IH|b x IHb IHx|h l IH] using sx_ind'; intros H1 H2; try reflexivity;
      try (apply H1; left; reflexivity).
    - apply H2. left. reflexivity.
    - rewrite !mean_add. f_equal. apply map_ext_in. intros y Hy. rewrite Forall_forall in IH. apply (IH y Hy).
      + intros z Hz. apply H1. right. cbn. apply in_flat_map. eauto.
      + intros f v Hz. apply H2. right. cbn. apply in_flat_map. eauto.
    - rewrite !mean_mul. f_equal. apply map_ext_in. intros y Hy. rewrite Forall_forall in IH. apply (IH y Hy).
      + intros z Hz. apply H1. right. cbn. apply in_flat_map. eauto.
      + intros f v Hz. apply H2. right. cbn. apply in_flat_map. eauto.
    - rewrite !mean_pow. rewrite IHb, IHx; auto.
      + intros z Hz. apply H1. right. cbn. apply in_or_app. auto.
      + intros f v Hz. apply H2. right. cbn. apply in_or_app. auto.
      + intros z Hz. apply H1. right. cbn. apply in_or_app. auto.
      + intros f v Hz. apply H2. right. cbn. apply in_or_app. auto.
  Qed.

  (** the values of the functions in a state *)
  Definition values (prog : list sx) (state : arrs) (f : sx) : arrs := match index_of f prog with Some k => row state k | None => cst f end.
  Lemma values_state prog state : NoDup prog -> map (row state) (seq 0 (List.length prog)) = map (values prog state) prog.
  Proof.
    intros ND. apply list_ext. intros k. rewrite !nth_error_map.
    destruct (nth_error prog k) as [f|] eqn:E; cbn.
    - unfold values. rewrite (index_of_nth f prog k ND E). 
      assert (Hk : (k < List.length prog)%nat) by (apply nth_error_Some; congruence).
      rewrite (nth_error_nth' _ O) by (rewrite seq_length; auto). rewrite seq_nth by auto. reflexivity.
    - apply nth_error_None in E. rewrite (proj2 (nth_error_None _ _)); [reflexivity|]. rewrite seq_length. auto.
  Qed.

  Variables (prog : list sx) (pert : sx -> sx).
  Hypothesis ND2 : NoDup (prog ++ map pert prog).
  Hypothesis PA : forall f, In f prog -> exists h l, pert f = SApp h l.
  Notation n := (List.length prog).
  Notation val1 u := (values prog u).
  Notation val2 u p := (values (prog ++ map pert prog) (stacked n u p)).
  Notation LN e := (lin prog pert e).
  Notation cells := (entries n shape).
  Definition free (e : sx) : Prop := forall y, In y (subterms e) -> ~ In y (map pert prog).

  Lemma val_old u p f : ~ In f (map pert prog) -> val2 u p f = val1 u f.
  Proof.
    intros N. unfold values. rewrite index_of_app. destruct (index_of f prog) as [k|] eqn:E.
    - apply functional_extensionality. intros js. unfold row, stacked. apply index_of_Some in E.
      assert (Hk : (k < n)%nat) by (apply nth_error_Some; congruence). apply Nat.ltb_lt in Hk. rewrite Hk. reflexivity.
    - rewrite (proj2 (index_of_None f (map pert prog)) N). reflexivity.
  Qed.
  Lemma val_new u p f k : nth_error prog k = Some f -> val2 u p (pert f) = fun js => p (k :: js).
  Proof.
    intros E. assert (Hk : (k < n)%nat) by (apply nth_error_Some; congruence).
    unfold values. rewrite (index_of_nth (pert f) (prog ++ map pert prog) (n + k) ND2).
    - apply functional_extensionality. intros js. unfold row, stacked. rewrite (proj2 (Nat.ltb_ge (n + k) n)) by lia. do 2 f_equal. lia.
    - rewrite nth_error_app2 by lia. replace (n + k - n)%nat with k by lia. rewrite nth_error_map, E. reflexivity.
  Qed.
  Lemma prog_NoDup : NoDup prog.
  Proof. revert ND2. generalize (map pert prog). clear. intros l. induction prog as [|x r IH]; intros N; [constructor|]. inversion N as [|? ? N1 N2]; subst. constructor; [|auto]. intros Q. apply N1. apply in_or_app. auto. Qed.
  Lemma mean_old u p e js : free e -> MN (val2 u p) ST e js = MN (val1 u) ST e js.
  Proof.
    intros F. apply mean_agree.
    - intros y Hy. rewrite val_old by (apply F; auto). reflexivity.
    - intros f v Hd. rewrite val_old; [reflexivity|]. apply F. apply (subterms_trans _ _ Hd). right. apply in_or_app. left. destruct f; left; reflexivity.
  Qed.

  Definition psize := @size (list nat) cells.
  Notation EXP := (expand psize (in_range shape)).

  (** a function of the state *)
  Lemma expand_function u f h l : f = SApp h l -> EXP (fun p => MN (val1 (fun i => u i + p i)) ST f) (MN (val1 u) ST f) (fun p => MN (val2 u p) ST (LN f)).
  Proof.
    intros ->. cbn [lin]. unfold lin_function. destruct (smem (SApp h l) prog) eqn:E.
    - apply smem_true in E. apply In_nth_error in E as (k & E). assert (Hk : (k < n)%nat) by (apply nth_error_Some; congruence).
      destruct (PA (SApp h l) (nth_error_In _ _ E)) as (h' & l' & Ep).
      destruct (array_bounded shape (fun js => u (k :: js))) as (M & M0 & HM).
      exists M, 0, 1. split; [exact M0|]. split; [lra|]. split; [lra|].
      assert (V1 : forall w js, MN (val1 w) ST (SApp h l) js = w (k :: js)).
      { intros w js. cbn [mean]. unfold values. rewrite (index_of_nth _ _ _ prog_NoDup E). reflexivity. }
      assert (V2 : forall p js, MN (val2 u p) ST (pert (SApp h l)) js = p (k :: js)).
      { intros p js. rewrite <- (f_equal (fun a => a js) (val_new u p _ _ E)). rewrite Ep. reflexivity. }
      split; [|split].
      + intros js R. rewrite V1. apply HM. exact R.
      + intros p m Hm Hp js R. rewrite !V1, V2. rewrite Rminus_diag_eq, Rabs_R0 by ring. cbn; nra.
      + intros p m Hm Hp js R. rewrite V2. rewrite Rmult_1_l. apply Hp. exists k, js. auto.
    - apply smem_false in E. destruct (array_bounded shape (cst (SApp h l))) as (M & M0 & HM).
      assert (V1 : forall w js, MN (val1 w) ST (SApp h l) js = cst (SApp h l) js).
      { intros w js. cbn [mean]. unfold values. rewrite (proj2 (index_of_None _ _) E). reflexivity. }
      eapply expand_ext; [| | |exact (expand_const psize (in_range shape) (cst (SApp h l)) M HM)].
      + intros p js _. rewrite V1. reflexivity.
      + intros js _. rewrite V1. reflexivity.
      + intros p js _. cbn. unfold a_num, Q2R. cbn. lra.
  Qed.
  Lemma expand_derivative u f v : EXP (fun p => MN (val1 (fun i => u i + p i)) ST (SDer f v)) (MN (val1 u) ST (SDer f v)) (fun p => MN (val2 u p) ST (LN (SDer f v))).
  Proof.
    cbn [lin]. unfold lin_function. destruct (sten_bound coords shape g LS v) as (B & B0 & HB). destruct (smem f prog) eqn:E.
    - apply smem_true in E. apply In_nth_error in E as (k & E). assert (Hk : (k < n)%nat) by (apply nth_error_Some; congruence).
      destruct (array_bounded shape (fun js => u (k :: js))) as (M & M0 & HM).
      exists (B * M), 0, B. split; [apply Rmult_le_pos; auto|]. split; [lra|]. split; [exact B0|].
      assert (V1 : forall w js, MN (val1 w) ST (SDer f v) js = ST v (fun js => w (k :: js)) js).
      { intros w js. cbn [mean]. unfold values. rewrite (index_of_nth _ _ _ prog_NoDup E). reflexivity. }
      assert (V2 : forall p js, MN (val2 u p) ST (SDer (pert f) v) js = ST v (fun js => p (k :: js)) js).
      { intros p js. cbn [mean]. rewrite (val_new u p _ _ E). reflexivity. }
      split; [|split].
      + intros js R. rewrite V1. apply HB; auto.
      + intros p m Hm Hp js R. rewrite !V1, V2.
        assert (S1 : ST v (fun js0 => u (k :: js0) + p (k :: js0)) js = ST v (fun js => u (k :: js)) js + 1 * ST v (fun js => p (k :: js)) js).
        { rewrite <- sten_combine. apply sten_ext; auto. intros i _. ring. }
        rewrite S1. rewrite Rminus_diag_eq, Rabs_R0 by ring. cbn; nra.
      + intros p m Hm Hp js R. rewrite V2. apply HB; auto. intros i Hi. apply Hp. exists k, i. auto.
    - apply smem_false in E. destruct (array_bounded shape (ST v (cst f))) as (M & M0 & HM).
      assert (V1 : forall w js, MN (val1 w) ST (SDer f v) js = ST v (cst f) js).
      { intros w js. cbn [mean]. unfold values. rewrite (proj2 (index_of_None _ _) E). reflexivity. }
      eapply expand_ext; [| | |exact (expand_const psize (in_range shape) (ST v (cst f)) M HM)].
      + intros p js _. rewrite V1. reflexivity.
      + intros js _. rewrite V1. reflexivity.
      + intros p js _. cbn. unfold a_num, Q2R. cbn. lra.
  Qed.
  Fixpoint product (l : list sx) : list sx := match l with [] => [] | x :: r => SMul (LN x :: r) :: map (fun y => SMul [x; y]) (product r) end.
  Lemma lin_mul l : LN (SMul l) = SAdd (product l).
  Proof. cbn [lin]. f_equal. Qed.
  Lemma free_add l x : free (SAdd l) -> In x l -> free x.
  Proof. intros F Hx y Hy. apply F. right. cbn. apply in_flat_map. eauto. Qed.
  Lemma free_mul l x : free (SMul l) -> In x l -> free x.
  Proof. intros F Hx y Hy. apply F. right. cbn. apply in_flat_map. eauto. Qed.
  Lemma product_value u p x r js : free x -> (forall y, In y r -> free y) ->
    fold_right Rplus 0 (map (fun y => MN (val2 u p) ST y js) (product (x :: r))) =
    MN (val2 u p) ST (LN x) js * fold_right Rmult 1 (map (fun y => MN (val1 u) ST y js) r)
      + MN (val1 u) ST x js * fold_right Rplus 0 (map (fun y => MN (val2 u p) ST y js) (product r)).
  Proof.
    intros Fx Fr. cbn [product map fold_right]. rewrite mean_mul. cbn [map fold_right]. f_equal.
    - f_equal. f_equal. apply map_ext_in. intros y Hy. apply mean_old. auto.
    - rewrite map_map. induction (product r) as [|y l IH]; cbn [map fold_right]; [ring|]. rewrite IH, mean_mul. cbn [map fold_right].
      rewrite (mean_old u p x js Fx). ring.
  Qed.
  Lemma Q2R_nat m : Q2R (Z.of_nat m # 1) = INR m.
  Proof. unfold Q2R. cbn. rewrite INR_IZR_INZ. lra. Qed.

  Lemma expand_poly u e : polynomial e -> free e ->
    EXP (fun p => MN (val1 (fun i => u i + p i)) ST e) (MN (val1 u) ST e) (fun p => MN (val2 u p) ST (LN e)).
  Proof.
    induction e as [q|k s|f l _|e _|e v _|e l _ _|l IH|l IH|b x IHb IHx|h l _] using sx_ind'; intros HP HF; try (now inversion HP).
    - eapply expand_ext; [| | |apply (expand_const psize (in_range shape) (fun _ => Q2R q) (Rabs (Q2R q)))]; try reflexivity.
      + intros p js _. cbn. unfold a_num, Q2R. cbn. lra.
      + intros. lra.
    - eapply expand_ext; [| | |apply (expand_const psize (in_range shape) (fun _ => kappa (SSym k s)) (Rabs (kappa (SSym k s))))]; try reflexivity.
      + intros p js _. cbn. unfold a_num, Q2R. cbn. lra.
      + intros. lra.
    - eapply expand_function. reflexivity.
    - apply expand_derivative.
    - inversion HP as [| | | |l' HL| |]; subst. cbn [lin].
      assert (K : EXP (fun p js => fold_right Rplus 0 (map (fun y => MN (val1 (fun i => u i + p i)) ST y js) l))
        (fun js => fold_right Rplus 0 (map (fun y => MN (val1 u) ST y js) l))
        (fun p js => fold_right Rplus 0 (map (fun y => MN (val2 u p) ST y js) (map (lin prog pert) l)))).
      { clear HP. induction l as [|x r IHr].
        - apply (expand_const psize (in_range shape) (fun _ => 0) 0). intros. rewrite Rabs_R0. lra.
        - inversion IH as [|? ? I1 I2]; subst. inversion HL as [|? ? P1 P2]; subst. cbn [map fold_right].
          apply (expand_add psize (in_range shape)).
          + apply I1; auto. apply (free_add _ x HF). left. reflexivity.
          + apply IHr; auto. intros y [Hy|Hy]; [|apply HF; right; cbn; apply in_or_app; right; exact Hy].
            subst y. intros Q. apply in_map_iff in Q as (f & Ef & Hf). destruct (PA f Hf) as (h' & l' & E). congruence. }
      eapply expand_ext; [| | |exact K]; intros; rewrite mean_add; reflexivity.
    - inversion HP as [| | | | |l' HL|]; subst. rewrite lin_mul.
      assert (K : EXP (fun p js => fold_right Rmult 1 (map (fun y => MN (val1 (fun i => u i + p i)) ST y js) l))
        (fun js => fold_right Rmult 1 (map (fun y => MN (val1 u) ST y js) l))
        (fun p js => fold_right Rplus 0 (map (fun y => MN (val2 u p) ST y js) (product l)))).
      { assert (FL : forall y, In y l -> free y) by (intros y Hy; apply (free_mul l y HF Hy)). clear HP HF. induction l as [|x r IHr].
        - apply (expand_const psize (in_range shape) (fun _ => 1) 1). intros. rewrite Rabs_R1. lra.
        - inversion IH as [|? ? I1 I2]; subst. inversion HL as [|? ? P1 P2]; subst.
          assert (Fx : free x) by (apply FL; left; reflexivity). assert (Fr : forall y, In y r -> free y) by (intros; apply FL; right; auto).
          eapply expand_ext; [| | |exact (expand_mul psize (in_range shape) _ _ _ _ _ _ (I1 P1 Fx) (IHr I2 P2 Fr))].
          + reflexivity.
          + reflexivity.
          + intros p js _. rewrite product_value by auto. reflexivity. }
      eapply expand_ext; [| | |exact K]; intros; first [rewrite mean_mul; reflexivity|rewrite mean_add; reflexivity].
    - inversion HP as [| | | | | |b' m Hb]; subst. cbn [lin].
      assert (Fb : free b) by (intros y Hy; apply HF; right; cbn; apply in_or_app; left; exact Hy).
      assert (PW : forall rho js, MN rho ST (SPow b (SNum (Z.of_nat m # 1))) js = MN rho ST b js ^ m).
      { intros rho js. rewrite mean_pow. cbn [mean]. unfold a_num. rewrite Q2R_nat. apply POW. }
      eapply expand_ext; [| | |exact (expand_pow psize (in_range shape) m _ _ _ (IHb Hb Fb))].
      + intros p js _. rewrite PW. reflexivity.
      + intros js _. rewrite PW. reflexivity.
      + intros p js _. rewrite mean_mul. cbn [map fold_right]. rewrite mean_pow. rewrite (mean_old u p b js Fb). cbn [lower]. set (A := MN (val1 u) ST b js). set (L := MN (val2 u p) ST (LN b) js). cbn [mean]. unfold a_num. rewrite Q2R_nat.
        destruct m as [|m]; [cbn; ring|]. replace (Z.of_nat (S m) - 1)%Z with (Z.of_nat m) by lia. rewrite Q2R_nat, POW. cbn [pred]. ring.
  Qed.

  (** the tangent is linear *)
  Lemma lin_linear u c p q e js : polynomial e -> free e -> in_range shape js ->
    MN (val2 u (fun i => p i + c * q i)) ST (LN e) js = MN (val2 u p) ST (LN e) js + c * MN (val2 u q) ST (LN e) js.
  Proof.
    intros HP HF R. induction e as [z|k s|f l _|e _|e v _|e l _ _|l IH|l IH|b x IHb IHx|h l _] using sx_ind'; try (now inversion HP).
    - cbn. unfold a_num, Q2R. cbn. lra.
    - cbn. unfold a_num, Q2R. cbn. lra.
    - cbn [lin]. unfold lin_function. destruct (smem (SApp f l) prog) eqn:E; [|cbn; unfold a_num, Q2R; cbn; lra].
      apply smem_true in E. destruct (PA _ E) as (h' & l' & Ep). apply In_nth_error in E as (k & E).
      assert (V2 : forall p js, MN (val2 u p) ST (pert (SApp f l)) js = p (k :: js)).
      { intros p' js'. rewrite <- (f_equal (fun a => a js') (val_new u p' _ _ E)). rewrite Ep. reflexivity. }
      rewrite !V2. reflexivity.
    - cbn [lin]. unfold lin_function. destruct (smem e prog) eqn:E; [|cbn; unfold a_num, Q2R; cbn; lra].
      apply smem_true in E. apply In_nth_error in E as (k & E). cbn [mean]. rewrite !(val_new u _ _ _ E). apply sten_combine.
    - inversion HP as [| | | |l' HL| |]; subst. cbn [lin]. rewrite !mean_add, !map_map.
      assert (FL : forall y, In y l -> free y) by (intros y Hy; apply (free_add l y HF Hy)). clear HP HF.
      induction l as [|x r IHr]; cbn [map fold_right]; [ring|]. inversion IH as [|? ? I1 I2]; subst. inversion HL as [|? ? P1 P2]; subst.
      rewrite IHr by (auto; intros; apply FL; right; auto). rewrite I1 by (auto; apply FL; left; auto). ring.
    - inversion HP as [| | | | |l' HL|]; subst. rewrite lin_mul, !mean_add.
      assert (FL : forall y, In y l -> free y) by (intros y Hy; apply (free_mul l y HF Hy)). clear HP HF.
      induction l as [|x r IHr]; [cbn; ring|]. inversion IH as [|? ? I1 I2]; subst. inversion HL as [|? ? P1 P2]; subst.
      assert (Fx : free x) by (apply FL; left; reflexivity). assert (Fr : forall y, In y r -> free y) by (intros; apply FL; right; auto).
      rewrite !product_value by auto. rewrite (IHr I2 P2 Fr), (I1 P1 Fx). ring.
    - inversion HP as [| | | | | |b' m Hb]; subst. cbn [lin]. rewrite !mean_mul. cbn [map fold_right].
      assert (Fb : free b) by (intros y Hy; apply HF; right; cbn; apply in_or_app; left; exact Hy).
      rewrite (IHb Hb Fb). rewrite !mean_pow, !(mean_old u _ b js Fb). cbn [mean lower]. ring.
  Qed.
End Means.
