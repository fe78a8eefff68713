(** What subs_tree contains, and what reading it changes. *)
From Coq Require Import List Arith ZArith QArith Qcanon Ring Bool String Permutation Lia.
From Verif Require CodegenFail.
From Verif Require Import PyBase PyBaseFacts PartialOrderModel TreeModel TreeSpec TreeProofs TreeMore TreeProps Reynolds PKFModel PKFSpec PKFTimeSpec PKFAlg PKFAtoms
  PKFClosure PKFProofs PKFInv PKFShape PKFWords PKFMore PKFExplicit PKFNormal PKFMain PKFObjModel PKFObjSpec PKFObjProofs PKFObjMain PartialOrderProofs SubsTreeModel SubsTreeSpec SubsTreeProofs.
Import ListNotations.
Close Scope Q_scope.
Close Scope Qc_scope.
Close Scope Z_scope.
Open Scope nat_scope.
Open Scope string_scope.
Open Scope list_scope.

Section Read.
  Variables (enum : list mi -> list mi) (enumD : tdict -> tdict) (enumC : edict -> edict)
            (enumF : list (fn * poly) -> list (fn * poly)) (enumU : list fn -> list fn).
  Variables (coords : list string) (eqs : list poly).
  Hypothesis HR : rearrangements enum enumD enumC enumF enumU.
  Hypothesis Hcoords : NoDup coords.
  Hypothesis Hne : coords <> [].
  Let Henum := proj1 HR.
  Let HenumD := proj1 (proj2 HR).
  Let HenumC := proj1 (proj2 (proj2 HR)).
  Notation n := (List.length eqs).

  (** *** one entry *)
  Section Entry.
    Variables (cl : edict) (i k : nat) (t : edict).
    Hypothesis Hi : i < n.
    Hypothesis Hcl : internal_closure enum coords eqs = Ok cl.
    Hypothesis Ht : closed_tree enum enumD enumC coords cl i k = Ok t.
    Lemma entry_keys l : In l (dkeys t) <-> reducible coords i k l.
    Proof.
      unfold closed_tree in Ht. destruct (fst (tree_call enum enumD true coords tree_init (Some k))) as [rules|] eqn:Hr; cbn [bind] in Ht; [|discriminate].
      apply Ok_inj in Ht. subst t. unfold dkeys. rewrite map_map. cbn [fst]. rewrite in_map_iff. split.
      - intros ([[a b] e] & <- & Hin). unfold tree_key. cbn [fst snd].
        destruct (C39_only_pairs enum enumD true coords Henum HenumD Hcoords Hne [] k rules Hr a b e Hin) as (x & y & [(La & Pa & Sa) Na] & [(Lb & Pb & Sb) Nb] & Hxy).
        assert (Ea : List.length (word_of coords a) = x) by (apply Nat2Z.inj; rewrite word_of_length by assumption; exact Sa).
        assert (Eb : List.length (word_of coords b) = y) by (apply Nat2Z.inj; rewrite word_of_length by assumption; exact Sb).
        exists (word_of coords a), (word_of coords b). split; [intros E; rewrite E in Ea; cbn in Ea; congruence|].
        split; [intros E; rewrite E in Eb; cbn in Eb; congruence|]. split; [lia|].
        split; [apply spatial_word_iff, spatial_word_of|]. split; [apply spatial_word_iff, spatial_word_of|reflexivity].
      - intros (v & w & Hv & Hw & Hk & Sv & Sw & ->). apply spatial_word_iff in Sv, Sw.
        destruct (C39_complete enum enumD true coords Henum HenumD Hcoords Hne [] k) as (rules' & HR' & Hc).
        change (tree_calls enum enumD true coords tree_init []) with tree_init in HR'. rewrite HR' in Hr. apply Ok_inj in Hr. subst rules'.
        destruct (Hc (orders coords v) (orders coords w) (List.length v) (List.length w)) as (e & He);
          [split; [apply orders_index; assumption|destruct v; [congruence|discriminate]]|split; [apply orders_index; assumption|destruct w; [congruence|discriminate]]|exact Hk|].
        destruct He as [He|He]; eexists; (split; [|exact He]); unfold tree_key; cbn [fst snd]; rewrite !word_orders by assumption; [reflexivity|apply jkey_sym; reflexivity].
    Qed.
    Lemma entry_values l v : In (l, v) t -> forall l', averaged_in l' v -> irreducible coords i k l'.
    Proof.
      unfold closed_tree in Ht. destruct (fst (tree_call enum enumD true coords tree_init (Some k))) as [rules|] eqn:Hr; cbn [bind] in Ht; [|discriminate].
      apply Ok_inj in Ht. subst t. intros Hin. apply in_map_iff in Hin. destruct Hin as ([[a b] e] & H & Hin). apply pair_inj in H. destruct H as [_ <-].
      cbn [snd]. set (P := fun l' => exists w, List.length w <= k /\ spatial coords w /\ l' = [(FEps i, []); (FEps i, w)]).
      assert (HP : avs P (tree_value coords i e)).
      { unfold tree_value. apply psum_all. intros q Hq. apply in_map_iff in Hq. destruct Hq as ([[c ds] gh] & <- & Hq).
        apply pscale_all, avs_derivs, pall_atom. cbn [av].
        destruct (rules_entry enum enumD true coords Henum HenumD Hcoords Hne [] (Some k) rules Hr) as [H _].
        destruct (H _ Hin) as (m & Hm & _ & _ & Hnf). destruct (Hnf eq_refl _ _ _ Hq) as (g & z & -> & (Lg & Pg & Sg) & Hlen).
        exists (word_of coords g). split; [|split; [apply spatial_word_of|]].
        - apply Nat2Z.inj_le. rewrite word_of_length by assumption. rewrite Sg. lia.
        - unfold tree_key. destruct (ekey_cases (zero_index (List.length coords)) g) as [-> | ->]; cbn [fst snd]; rewrite zero_word; [apply eps_key|].
          rewrite jkey_sym by reflexivity. apply eps_key. }
      pose proof (internal_avs enum enumC coords eqs Henum HenumC Hcoords Hne cl P _ Hcl HP) as H. rewrite avs_iff in H.
      intros l' Hl'. destruct (H l' Hl') as [(w & Hw & Sw & ->) Hk]. exists w. apply spatial_word_iff in Sw. split; [|split; [exact Sw|reflexivity]].
      split; [|exact Hw]. destruct (Nat.le_gt_cases 4 (List.length w)) as [|G]; [assumption|]. exfalso. apply Hk. right. right. right.
      exists i, w. split; [exact Hi|]. split; [exact Sw|]. split; [lia|reflexivity].
    Qed.
  End Entry.

  (** *** the whole dictionary *)
  Variable closure : edict.
  Variable Pc : option psystem -> Prop.
  Notation coh := (coh enum enumD enumC enumF enumU coords eqs closure Pc).
  Lemma closed_now cl i s : internal_closure enum coords eqs = Ok cl -> coh s ->
    fst (m_closed_now enum enumD enumC coords eqs i s) = closed_tree enum enumD enumC coords cl i (t_degree (tree_at s i))
    /\ coh (snd (m_closed_now enum enumD enumC coords eqs i s)) /\ same_trees s (snd (m_closed_now enum enumD enumC coords eqs i s)).
  Proof.
    intros Hcl Hs. split; [|split; [|apply closed_now_trees]]; unfold m_closed_now, closed_tree, bindM.
    all: destruct (c_fld _ _ _ _ _ _ _ _ _ s Hs i) as [(h & Eh) Hf].
    all: assert (E : m_tree_now enum enumD coords i s = (fst (tree_call enum enumD true coords tree_init (Some (t_degree (tree_at s i)))), set_field i (mkF (tree_at s i) (f_closure (nth i (s_fields s) f_init))) s)).
    all: try (unfold m_tree_now; pose proof (tree_call_now enum enumD true coords (tree_at s i)) as E0;
      pose proof (C41_default_degree enum enumD true coords Henum HenumD Hcoords Hne h) as E1;
      rewrite <- (history_degree enum Henum enumD HenumD true coords Hcoords Hne h) in E1; rewrite <- Eh in E1; fold (tree_at s i) in *;
      destruct (tree_call enum enumD true coords (tree_at s i) None) as [r t]; cbn [fst snd] in *; subst t r; reflexivity).
    all: rewrite E; set (s' := set_field _ _ s).
    all: assert (Hs' : coh s') by (destruct Hs; constructor; auto; cbn; apply fok_set; [|exact c_fld]; split; [exists h; exact Eh|exact Hf]).
    all: destruct (fst (tree_call enum enumD true coords tree_init (Some (t_degree (tree_at s i))))) as [d|e]; cbn [bind]; try reflexivity; try exact Hs'.
    all: destruct (gives_closed enum enumD enumC enumF enumU coords eqs closure HR Hne Pc
           (fun kv cl => (tree_key coords i (fst kv), sub_exps (enumC cl) (tree_value coords i (snd kv)))) cl d Hcl s' Hs') as [G1 G2].
    - exact G1. - exact G2.
  Qed.
  Lemma subs_tree_now cl s : internal_closure enum coords eqs = Ok cl -> coh s ->
    exists ts, mapM (fun i => closed_tree enum enumD enumC coords cl i (t_degree (tree_at s i))) (fields eqs) = Ok ts
      /\ fst (m_subs_tree enum enumD enumC coords eqs s) = Ok (fold_left dupdate ts [])
      /\ coh (snd (m_subs_tree enum enumD enumC coords eqs s)) /\ same_trees s (snd (m_subs_tree enum enumD enumC coords eqs s)).
  Proof.
    intros Hcl Hs. unfold m_subs_tree. generalize (fields eqs) as l, (@nil (list jet * poly)) as d0.
    set (f := fun i => closed_tree enum enumD enumC coords cl i (t_degree (tree_at s i))).
    assert (Hf : forall i, exists t, f i = Ok t).
    { intros i. unfold f, closed_tree. destruct (C39_complete enum enumD true coords Henum HenumD Hcoords Hne [] (t_degree (tree_at s i))) as (r & E & _).
      change (tree_calls enum enumD true coords tree_init []) with tree_init in E. rewrite E. cbn [bind]. eexists. reflexivity. }
    assert (G : forall l d0 s', coh s' -> same_trees s s' ->
      exists ts, mapM f l = Ok ts
      /\ fst (foldS (fun d i => bindM (m_closed_now enum enumD enumC coords eqs i) (fun t => ret (dupdate d t))) d0 l s') = Ok (fold_left dupdate ts d0)
      /\ coh (snd (foldS (fun d i => bindM (m_closed_now enum enumD enumC coords eqs i) (fun t => ret (dupdate d t))) d0 l s'))
      /\ same_trees s (snd (foldS (fun d i => bindM (m_closed_now enum enumD enumC coords eqs i) (fun t => ret (dupdate d t))) d0 l s'))).
    { induction l as [|i l IH]; intros d0 s' Hs' Hsame; [exists []; cbn; auto|]. cbn [foldS mapM].
      destruct (Hf i) as (t & Et). rewrite Et. cbn [bind].
      destruct (closed_now cl i s' Hcl Hs') as (E1 & C1 & T1). rewrite <- (proj2 Hsame i) in E1. fold (f i) in E1. rewrite Et in E1.
      assert (T1' := trees_trans _ _ _ Hsame T1). destruct (m_closed_now enum enumD enumC coords eqs i s') as [r s1] eqn:E. cbn [fst snd] in *. subst r.
      match goal with |- context [bindM ?m ?c s'] => replace (bindM m c s') with (c (dupdate d0 t) s1) by (unfold bindM; rewrite E; reflexivity) end.
      destruct (IH (dupdate d0 t) s1 C1 T1') as (ts & M & H). exists (t :: ts). rewrite M. split; [reflexivity|]. exact H. }
    intros l d0. exact (G l d0 s Hs (trees_refl s)).
  Qed.

  Lemma dictionary cl N ts : internal_closure enum coords eqs = Ok cl ->
    mapM (fun i => closed_tree enum enumD enumC coords cl i (N i)) (fields eqs) = Ok ts ->
    let d := fold_left dupdate ts [] in
    (forall l, In l (dkeys d) <-> exists i, i < n /\ reducible coords i (N i) l)
    /\ (forall l v, In (l, v) d -> exists i, i < n /\ reducible coords i (N i) l /\ forall l', averaged_in l' v -> irreducible coords i (N i) l')
    /\ (forall (A : RAlg) (E : env A), statistics coords n E -> closure_holds E d).
  Proof.
    intros Hcl Hts d. assert (In1 : forall l v, In (l, v) d -> exists i t, i < n /\ closed_tree enum enumD enumC coords cl i (N i) = Ok t /\ In (l, v) t).
    { intros l v Hin. apply in_dupdates in Hin. destruct Hin as [[]|(t & Ht & Hin)]. destruct (PKFProofs.mapM_in _ _ _ _ Hts Ht) as (i & Hi & E).
      apply fields_in in Hi. exists i, t. auto. }
    split; [|split].
    - intros l. split.
      + intros Hl. apply dkeys_ex in Hl. destruct Hl as (v & Hin). destruct (In1 l v Hin) as (i & t & Hi & Ht & Hv). exists i. split; [exact Hi|].
        apply (entry_keys cl i (N i) t Hi Ht). apply dkeys_ex. exists v. exact Hv.
      + intros (i & Hi & Hl). apply dkeys_dupdates. right. destruct (CodegenFail.mapM_in _ _ _ i Hts) as (t & Ht & Hin); [apply fields_in, Hi|].
        exists t. split; [exact Hin|]. apply (entry_keys cl i (N i) t Hi Ht). exact Hl.
    - intros l v Hin. destruct (In1 l v Hin) as (i & t & Hi & Ht & Hv). exists i. split; [exact Hi|]. split.
      + apply (entry_keys cl i (N i) t Hi Ht). apply dkeys_ex. exists v. exact Hv.
      + exact (entry_values cl i (N i) t Hi Hcl Ht l v Hv).
    - intros A E HS l v Hin. destruct (In1 l v Hin) as (i & t & Hi & Ht & Hv).
      exact (closed_tree_holds E coords n HS enum enumD enumC Henum HenumD HenumC Hcoords Hne cl i (N i) t (internal_closure_holds E coords n HS enum eqs cl eq_refl Hcl) Ht l v Hv).
  Qed.
End Read.

Section World.
  Variables (enum : list mi -> list mi) (enumD : tdict -> tdict) (enumC : edict -> edict)
            (enumF : list (fn * poly) -> list (fn * poly)) (enumU : list fn -> list fn).
  Notation step := (step enum enumD enumC enumF enumU).
  Notation run := (run enum enumD enumC enumF enumU).
  Notation read := (read_tree enum enumD enumC).

  (** *** the degrees never decrease *)
  Lemma degree_other w o x i s : nth_error (w_objs w) o = Some x -> forall ws o',
    grows (o_state x) s -> degree_now w o' i <= degree_now (mkWorld ws (set_nth o (mkObj (o_coords x) (o_eqs x) (o_closure x) s) (w_objs w))) o' i.
  Proof.
    intros Ho ws o' H. unfold degree_now. cbn [w_objs]. rewrite nth_error_set_nth. destruct (Nat.eqb_spec o' o) as [->|Hoo].
    - rewrite ?Nat.eqb_refl, Ho. assert (o < List.length (w_objs w)) by (apply nth_error_Some; congruence).
      destruct (Nat.ltb_spec o (List.length (w_objs w))); [|lia]. cbn [o_state]. exact (H i).
    - destruct (Nat.eqb_spec o o'); [congruence|]. lia.
  Qed.
  Lemma degree_step w x o i : degree_now w o i <= degree_now (snd (step w x)) o i.
  Proof.
    assert (New : forall ws y, degree_now w o i <= degree_now (mkWorld ws (w_objs w ++ [y])) o i).
    { intros ws y. unfold degree_now. cbn [w_objs]. destruct (nth_error (w_objs w) o) as [z|] eqn:E; [|lia]. rewrite nth_error_app1 by (apply nth_error_Some; congruence). rewrite E. lia. }
    destruct x as [d|a k v|cs es [c|]|o' d|o' q]; cbn [step snd]; try apply New; try (unfold degree_now; cbn [w_objs]; lia).
    - destruct (nth_error (w_objs w) o') as [y|] eqn:E; cbn [snd]; [|lia]. apply (degree_other w o' y i (reset (o_state y)) E). intros j. apply Nat.le_refl.
    - destruct (nth_error (w_objs w) o') as [y|] eqn:E; cbn [snd]; [|lia].
      pose proof (Kask enum enumD enumC enumF enumU (o_coords y) (o_eqs y) (dict_at w (o_closure y)) q (o_state y)) as K.
      destruct (ask _ _ _ _ _ _ _ _ _ _) as [r s]. cbn [snd] in *. apply (degree_other w o' y i s E). exact K.
  Qed.
  Lemma degree_run h : forall w o i, degree_now w o i <= degree_now (run w h) o i.
  Proof. induction h as [|x h IH]; intros w o i; cbn [run fold_left]; [lia|]. pose proof (degree_step w x o i). specialize (IH (snd (step w x)) o i). unfold run in IH. lia. Qed.

  Hypothesis HR : rearrangements enum enumD enumC enumF enumU.
  Variables (coords : list string) (eqs : list poly).
  Hypothesis Hcoords : NoDup coords.
  Hypothesis Hne : coords <> [].
  Hypothesis HU : user_system eqs.
  Notation holds_at := (holds_at enum enumD enumC enumF enumU).

  Lemma read_holds o a D w y : holds_at coords eqs o a D w y ->
    exists d y', read w o = (Ok d, snd (read w o)) /\ holds_at coords eqs o a D (snd (read w o)) y'
      /\ (forall l, In l (dkeys d) <-> exists i, i < List.length eqs /\ reducible coords i (degree_now w o i) l)
      /\ (forall l v, In (l, v) d -> exists i, i < List.length eqs /\ reducible coords i (degree_now w o i) l
            /\ forall l', averaged_in l' v -> irreducible coords i (degree_now w o i) l')
      /\ (forall (A : RAlg) (E : env A), statistics coords (List.length eqs) E -> closure_holds E d)
      /\ (forall i, degree_now (snd (read w o)) o i = degree_now w o i)
      /\ fst (read (snd (read w o)) o) = Ok d.
  Proof.
    intros [Ho Hc He Ha Hl Hd Hs]. destruct (internal_Ok enum enumD enumC enumF enumU coords eqs HR Hne) as (cl & Hcl).
    destruct (subs_tree_now enum enumD enumC enumF enumU coords eqs HR Hcoords Hne D (covs enum enumD enumC enumF enumU coords eqs) cl (o_state y) Hcl Hs) as (ts & Hts & E1 & C1 & T1).
    set (w1 := snd (read w o)). set (y1 := mkObj coords eqs a (snd (m_subs_tree enum enumD enumC coords eqs (o_state y)))).
    assert (R1 : read w o = (Ok (fold_left dupdate ts []), mkWorld (w_dicts w) (set_nth o y1 (w_objs w)))).
    { unfold read_tree. rewrite Ho, Hc, He. unfold y1. destruct (m_subs_tree enum enumD enumC coords eqs (o_state y)) as [r s]. cbn [fst snd] in *. subst r. rewrite Ha. reflexivity. }
    assert (W1 : w1 = mkWorld (w_dicts w) (set_nth o y1 (w_objs w))) by (unfold w1; rewrite R1; reflexivity).
    assert (O1 : nth_error (w_objs w1) o = Some y1).
    { rewrite W1. cbn [w_objs]. rewrite nth_error_set_nth, Nat.eqb_refl. destruct (Nat.ltb_spec o (List.length (w_objs w))) as [|G]; [reflexivity|]. apply nth_error_None in G. congruence. }
    assert (DN : forall i, degree_now w o i = t_degree (tree_at (o_state y) i)) by (intros i; unfold degree_now; rewrite Ho; reflexivity).
    assert (H1 : holds_at coords eqs o a D w1 y1).
    { constructor; auto; try reflexivity; try (rewrite W1; cbn [w_dicts]; assumption). }
    destruct (dictionary enum enumD enumC enumF enumU coords eqs HR Hcoords Hne cl (fun i => t_degree (tree_at (o_state y) i)) ts Hcl Hts) as (K1 & K2 & K3).
    exists (fold_left dupdate ts []), y1. split; [unfold w1; rewrite R1; reflexivity|]. split; [exact H1|].
    split; [intros l; rewrite K1; split; intros (i & Hi & H); exists i; rewrite DN in *; auto|].
    split; [intros l v Hin; destruct (K2 l v Hin) as (i & H); exists i; rewrite DN; exact H|].
    split; [exact K3|]. split.
    - intros i. rewrite DN. unfold degree_now. rewrite O1. unfold y1. cbn [o_state]. symmetry. f_equal. apply (proj2 T1).
    - destruct (subs_tree_now enum enumD enumC enumF enumU coords eqs HR Hcoords Hne D (covs enum enumD enumC enumF enumU coords eqs) cl (o_state y1) Hcl C1) as (ts' & Hts' & E2 & _ & _).
      assert (ts' = ts) as ->.
      { apply Ok_inj. rewrite <- Hts, <- Hts'. apply mapM_ext. intros i _. unfold y1. cbn [o_state]. rewrite (proj2 T1 i). reflexivity. }
      unfold read_tree. rewrite O1. unfold y1 at 1 2. cbn [o_coords o_eqs]. destruct (m_subs_tree enum enumD enumC coords eqs (o_state y1)) as [r s]. exact E2.
  Qed.

  Section History.
  Variables (w : world) (c : option nat) (h : list op).
  Hypothesis Hc : match c with Some a => a < List.length (w_dicts w) | None => True end.
  Notation o := (List.length (w_objs w)).
  Notation w0 := (snd (step w (NewPKF coords eqs c))).
  Hypothesis Hu : unshared enum enumD enumC enumF enumU w0 o h.
  Notation w1 := (run w0 h).
  Notation D0 := (match c with Some a => dict_at w a | None => [] end).
  Lemma main_read : exists d, fst (read w1 o) = Ok d
      /\ (forall l, In l (dkeys d) <-> exists i, i < List.length eqs /\ reducible coords i (degree_now w1 o i) l)
      /\ (forall l v, In (l, v) d -> exists i, i < List.length eqs /\ reducible coords i (degree_now w1 o i) l
            /\ forall l', averaged_in l' v -> irreducible coords i (degree_now w1 o i) l')
      /\ (forall (A : RAlg) (E : env A), statistics coords (List.length eqs) E -> closure_holds E d)
      /\ (forall i, degree_now (snd (read w1 o)) o i = degree_now w1 o i)
      /\ fst (read (snd (read w1 o)) o) = Ok d.
  Proof.
    destruct (created enum enumD enumC enumF enumU coords eqs w c Hc) as (a & y & Hw).
    destruct (run_holds enum enumD enumC enumF enumU HR coords eqs Hcoords Hne HU _ a h _ _ _ Hw Hu) as (y' & H).
    destruct (read_holds _ _ _ _ _ H) as (d & y2 & E & _ & K). exists d. split; [rewrite E; reflexivity|exact K].
  Qed.
  Lemma main_silent h' q : unshared enum enumD enumC enumF enumU (snd (read w1 o)) o h' ->
    fst (step (run (snd (read w1 o)) h') (Ask o q))
    = fresh enum enumD enumC enumF enumU coords eqs (merged D0 (given o (h ++ h'))) q.
  Proof.
    intros Hu'. destruct (created enum enumD enumC enumF enumU coords eqs w c Hc) as (a & y & Hw).
    destruct (run_holds enum enumD enumC enumF enumU HR coords eqs Hcoords Hne HU _ a h _ _ _ Hw Hu) as (y1 & H1).
    destruct (read_holds _ _ _ _ _ H1) as (d & y2 & _ & H2 & _).
    destruct (run_holds enum enumD enumC enumF enumU HR coords eqs Hcoords Hne HU _ a h' _ _ _ H2 Hu') as (y3 & H3). destruct H3 as [h_obj0 h_coords0 h_eqs0 h_addr0 h_lt0 h_dict0 h_coh0].
    set (W := run (snd (read w1 o)) h') in *. clearbody W. cbn [PKFObjModel.step]. rewrite h_obj0, h_coords0, h_eqs0, h_addr0, h_dict0.
    pose proof (proj1 (ask_fresh enum enumD enumC enumF enumU HR coords eqs _ Hcoords Hne HU q _ h_coh0)) as E.
    assert (G : merged (merged D0 (given o h)) (given o h') = merged D0 (given o (h ++ h'))) by (unfold merged, given; rewrite flat_map_app, fold_left_app; reflexivity).
    rewrite G in *. destruct (ask _ _ _ _ _ _ _ _ _ _) as [r s]. exact E.
  Qed.
  End History.
End World.

(** *** gamma *)
Section Gamma.
  Context {A : RAlg} (E : env A) (coords : list string) (n : nat) (HS : statistics coords n E).
  Open Scope ra_scope.
  Add Ring A_ringG : (c_th A).
  Lemma gamma_identity (u : A) k i j :
    EE (dd k u * dd i (dd j u))
    = cq (Q2Qc (1 # 2)) * (dd i (EE (dd k u * dd j u)) + (dd j (EE (dd i u * dd k u)) - dd k (EE (dd i u * dd j u)))).
  Proof.
    rewrite <- !EE_dd. rewrite !dd_mul, !EE_add.
    rewrite !(dd_comm A j i). rewrite !(dd_comm A j k). rewrite !(dd_comm A i k).
    replace (dd k (dd i u) * dd j u) with (dd j u * dd k (dd i u)) by ring.
    replace (dd k (dd j u) * dd i u) with (dd i u * dd k (dd j u)) by ring.
    replace (dd i (dd j u) * dd k u) with (dd k u * dd i (dd j u)) by ring.
    set (X := EE (dd k u * dd i (dd j u))). set (Y := EE (dd i u * dd k (dd j u))). set (Z := EE (dd j u * dd k (dd i u))).
    set (h := cq (Q2Qc (1 # 2))). assert (Hh : h + h = 1) by apply qq_half2.
    transitivity ((h + h) * X); [rewrite Hh|]; ring.
  Qed.
  Lemma gamma_value i k a b v : (i < n)%nat -> gamma_subs coords i k a b = Ok v -> EE (jprod E (gamma_def i k a b)) = pv E v.
  Proof.
    intros Hi. unfold gamma_subs.
    destruct (metric_of coords i k b) as [gkj|] eqn:H1; cbn [bind]; [|discriminate].
    destruct (metric_of coords i a k) as [gik|] eqn:H2; cbn [bind]; [|discriminate].
    destruct (metric_of coords i a b) as [gij|] eqn:H3; cbn [bind]; [|discriminate].
    intros H; apply Ok_inj in H; subst v. unfold gamma_def.
    rewrite jkey2 by reflexivity. cbn [dds].
    rewrite !(winsert_sound) by apply (st_algebraic E coords n HS). cbn [dds].
    rewrite pscale_sound, padd_sound, psub_sound, !pjet_sound by apply (st_algebraic E coords n HS). cbn [dds].
    rewrite (metric_of_value E coords n HS _ _ _ _ Hi H1), (metric_of_value E coords n HS _ _ _ _ Hi H2), (metric_of_value E coords n HS _ _ _ _ Hi H3).
    apply gamma_identity.
  Qed.
End Gamma.
Lemma main_gamma coords (eqs : list poly) i k a b : i < List.length eqs -> In k coords -> In a coords -> In b coords ->
  exists v, gamma_subs coords i k a b = Ok v
    /\ forall (A : RAlg) (E : env A), statistics coords (List.length eqs) E ->
         pv E v = EE (jprod E (gamma_def i k a b))
         /\ pv E v = EE (dd k (e_fn E (FEps i)) * dd a (dd b (e_fn E (FEps i))))%ra.
Proof.
  intros Hi Hk Ha Hb. destruct (cindex_in _ _ Hk) as (x & Ex), (cindex_in _ _ Ha) as (y & Ey), (cindex_in _ _ Hb) as (z & Ez).
  assert (G : exists v, gamma_subs coords i k a b = Ok v).
  { unfold gamma_subs, metric_of. rewrite Ex, Ey, Ez. cbn [bind]. eexists. reflexivity. }
  destruct G as (v & Hv). exists v. split; [exact Hv|]. intros A E HS.
  pose proof (gamma_value E coords _ HS i k a b v Hi Hv) as V. split; [symmetry; exact V|]. rewrite <- V. unfold gamma_def.
  rewrite jkey2 by reflexivity. cbn [dds]. rewrite !(winsert_sound) by apply (st_algebraic E coords _ HS). reflexivity.
Qed.
