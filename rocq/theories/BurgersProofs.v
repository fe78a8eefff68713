(** Proofs for BurgersProps. *)
From Coq Require Import List Arith Ring ZArith QArith Qcanon Bool String Permutation Lia.
From Verif Require Import PyBase PyBaseFacts PartialOrderModel TreeModel Reynolds PKFModel PKFSpec PKFTimeSpec PKFRateSpec PKFAlg PKFInst PKFInstMore PKFExplicitMain
  PKFLine PKFRateMain BurgersModel BurgersSpec.
Import ListNotations.
Close Scope Q_scope.
Close Scope Qc_scope.
Close Scope Z_scope.
Open Scope nat_scope.
Open Scope string_scope.
Open Scope list_scope.

Definition rhs : poly := [((-1)%Q, [AJet (FField 0) []; AJet (FField 0) ["x"]]); (1%Q, [AJet (FField 0) ["x"; "x"]; ACst 0])].
Definition term : list jet := [(FEps 0, []); (FEps 0, ["x"; "x"; "x"; "x"])].
Lemma burgers_free : metric_free rhs = true.
Proof. vm_compute. reflexivity. Qed.
Lemma burgers_terms : unclosed_terms same same same same same ["x"] dynamics [] = Ok [term].
Proof. vm_compute. reflexivity. Qed.

Definition mean_rhs : poly :=
  [(1%Q, [ACst 0; AJet (FField 0) ["x"; "x"]]); ((-1)%Q, [AJet (FField 0) []; AJet (FField 0) ["x"]]); ((-1 # 2)%Q, [AJet (FVar 0) ["x"]])].
Definition variance_rhs : poly :=
  [((-2)%Q, [ACst 0; ASig 0; ASig 0; AJet inv_s []]); ((-1 # 2)%Q, [ACst 0; AIsig 0; AIsig 0; AJet (FVar 0) ["x"]; AJet (FVar 0) ["x"]]);
   (1%Q, [ACst 0; AJet (FVar 0) ["x"; "x"]]); ((-2)%Q, [ASig 0; ASig 0; AJet (FField 0) ["x"]]); ((-1)%Q, [AJet (FField 0) []; AJet (FVar 0) ["x"]])].
Definition aspect_common : poly :=
  [(2%Q, [ACst 0; AIsig 0; AIsig 0; AIsig 0; AIsig 0; AJet (FVar 0) ["x"]; AJet (FVar 0) ["x"]; AJet s []; AJet s []; AJet inv_s []]);
   ((-1)%Q, [ACst 0; AIsig 0; AIsig 0; AJet (FVar 0) ["x"]; AJet s []; AJet s []; AJet inv_s ["x"]]);
   ((-2)%Q, [ACst 0; AIsig 0; AIsig 0; AJet (FVar 0) ["x"; "x"]; AJet s []; AJet s []; AJet inv_s []])].
Definition aspect_tail : poly :=
  [(1%Q, [AJet (FField 0) []; AJet s []; AJet s []; AJet inv_s ["x"]]); (2%Q, [AJet (FField 0) ["x"]; AJet s []; AJet s []; AJet inv_s []])].
Definition aspect_open : poly := aspect_common ++
  [((-2)%Q, [ACst 0; AJet s []; AJet s []; AJet inv_s []; AJet inv_s []]); (3%Q, [ACst 0; AJet s []; AJet s []; AJet inv_s ["x"; "x"]]);
   (2%Q, [ACst 0; AJet s []; AJet s []; AExp [] term])] ++ aspect_tail.
Definition aspect_closed : poly := aspect_common ++
  [((-8)%Q, [ACst 0; AJet s []; AJet s []; AJet s ["x"]; AJet s ["x"]; AJet inv_s []; AJet inv_s []; AJet inv_s []]);
   (4%Q, [ACst 0; AJet s []; AJet s []; AJet s ["x"; "x"]; AJet inv_s []; AJet inv_s []]);
   (4%Q, [ACst 0; AJet s []; AJet s []; AJet inv_s []; AJet inv_s []]); (3%Q, [ACst 0; AJet s []; AJet s []; AJet inv_s ["x"; "x"]])] ++ aspect_tail.
Definition system (r : poly) : list pequation :=
  [(time_derivative (FField 0), mean_rhs); (time_derivative (FVar 0), variance_rhs); (time_derivative s, r)].
Lemma open_system : in_aspect same same same same same ["x"] dynamics [] = Ok (system aspect_open).
Proof. vm_compute. reflexivity. Qed.
Lemma closed_system : in_aspect same same same same same ["x"] dynamics [(term, p18_aspect)] = Ok (system aspect_closed).
Proof. vm_compute. reflexivity. Qed.
Lemma p18_value : p18_aspect = [((-4)%Q, [AJet s ["x"]; AJet s ["x"]; AJet inv_s []; AJet inv_s []; AJet inv_s []]);
  (2%Q, [AJet s ["x"; "x"]; AJet inv_s []; AJet inv_s []]); (3%Q, [AJet inv_s []; AJet inv_s []])].
Proof. vm_compute. reflexivity. Qed.
Lemma p18_metric_value : exists p, p18_metric = p /\ (p = [(3%Q, [AJet g []; AJet g []]); ((-2)%Q, [AJet g ["x"; "x"]])]
  \/ p = [((-2)%Q, [AJet g ["x"; "x"]]); (3%Q, [AJet g []; AJet g []])]).
Proof. eexists. split; [reflexivity|]. first [left; vm_compute; reflexivity|right; vm_compute; reflexivity]. Qed.

Section Orders.
  Variables (enum : list mi -> list mi) (enumD : tdict -> tdict) (enumC : edict -> edict)
    (enumF : list (fn * poly) -> list (fn * poly)) (enumU : list fn -> list fn) (enumS : list (list jet) -> list (list jet)).
  Hypothesis HR : rearrangements enum enumD enumC enumF enumU.
  Hypothesis HS : forall l, Permutation (enumS l) l.
  Lemma the_term : unclosed_term enum enumD enumC enumF enumU enumS = Ok term.
  Proof.
    unfold unclosed_term. change dynamics with [rhs]. rewrite (unclosed_order _ _ _ _ _ HR rhs [] (Nat.le_0_l 1) burgers_free).
    change [rhs] with dynamics. rewrite burgers_terms. cbn [bind]. rewrite (single_order enumS term HS). reflexivity.
  Qed.
  Lemma aspect_any closure : List.length closure <= 1 ->
    in_aspect enum enumD enumC enumF enumU ["x"] dynamics closure = in_aspect same same same same same ["x"] dynamics closure.
  Proof. intros H. exact (in_tensor_order _ _ _ _ _ HR rhs closure H FAsp FInvAsp 1 (-1) true burgers_free). Qed.
  Lemma the_closed : closed_in_aspect enum enumD enumC enumF enumU enumS = Ok (system aspect_closed).
  Proof. unfold closed_in_aspect. rewrite the_term. cbn [bind]. rewrite aspect_any by (cbn; lia). exact closed_system. Qed.
  Lemma the_open : in_aspect enum enumD enumC enumF enumU ["x"] dynamics [] = Ok (system aspect_open).
  Proof. rewrite aspect_any by (cbn; lia). exact open_system. Qed.
End Orders.

Lemma closed_averages q l : In q (system aspect_closed) -> ~ averaged_in l (snd q).
Proof.
  intros Hq (c & m & w & Hm & Ha). cbn in Hq.
  repeat (destruct Hq as [<-|Hq]; [cbn in Hm; repeat (destruct Hm as [Hm|Hm]; [injection Hm as <- <-; cbn in Ha; intuition discriminate|]); destruct Hm|]).
  destruct Hq.
Qed.

(** ** values *)
Section Values.
  Context {A : RAlg} (E : env A).
  Add Ring A_ringB : (c_th A).
  Open Scope ra_scope.
  Hypothesis HE : statistics ["x"] 1 E.
  Hypothesis HT : tensor_is ["x"] 1 E FAsp FInvAsp 1.
  Notation D := (dd "x").
  Notation S := (e_fn E s).
  Notation G := (e_fn E g).
  Notation I := (e_fn E inv_s).
  Notation V := (e_fn E (FVar 0)).
  Notation U := (e_fn E (FField 0)).
  Notation ep := (e_fn E (FEps 0)).
  Notation half := (cq (r := A) (Q2Qc (1 # 2))).
  Notation qq c := (cq (r := A) (Q2Qc c)).

  Lemma q1 : qq 1 = 1. Proof. rewrite <- (cq_1 A). apply (f_equal (cq (r := A))), Qc_is_canon; reflexivity. Qed.
  Lemma q2 : qq 2 = 1 + 1.
  Proof. rewrite <- (cq_1 A), <- cq_add. apply (f_equal (cq (r := A))), Qc_is_canon; reflexivity. Qed.
  Lemma q3 : qq 3 = 1 + 1 + 1.
  Proof. rewrite <- (cq_1 A), <- !cq_add. apply (f_equal (cq (r := A))), Qc_is_canon; reflexivity. Qed.
  Lemma q4 : qq 4 = 1 + 1 + 1 + 1.
  Proof. rewrite <- (cq_1 A), <- !cq_add. apply (f_equal (cq (r := A))), Qc_is_canon; reflexivity. Qed.
  Lemma qm q : qq (- q) = - qq q.
  Proof. rewrite <- cq_opp. apply (f_equal (cq (r := A))), Qc_is_canon. unfold Qcopp, Q2Qc. cbn [this]. rewrite !Qred_correct. reflexivity. Qed.
  Lemma q_1 : qq (-1) = - (1). Proof. exact (eq_trans (qm 1) (f_equal copp q1)). Qed.
  Lemma q_2 : qq (-2) = - (1 + 1). Proof. exact (eq_trans (qm 2) (f_equal copp q2)). Qed.
  Lemma q_4 : qq (-4) = - (1 + 1 + 1 + 1). Proof. exact (eq_trans (qm 4) (f_equal copp q4)). Qed.
  Lemma q_8 : qq (-8) = - (1 + 1 + 1 + 1 + (1 + 1 + 1 + 1)).
  Proof. refine (eq_trans (qm 8) (f_equal copp _)). rewrite <- (cq_1 A), <- !cq_add. apply (f_equal (cq (r := A))), Qc_is_canon; reflexivity. Qed.
  Lemma q_half : qq (-1 # 2) = - half. Proof. exact (qm (1 # 2)). Qed.
  Lemma half2 : half + half = 1.
  Proof. rewrite <- (cq_1 A), <- cq_add. apply (f_equal (cq (r := A))), Qc_is_canon; reflexivity. Qed.

  Lemma S_G : S * G = 1.
  Proof.
    destruct (HT 0%nat) as [H _]; [lia|]. specialize (H 0%nat 0%nat (le_n 1) (le_n 1)). cbn in H. rewrite q1 in H. refine (eq_trans _ H). unfold tensor_matrix, s, g. cbn. ring.
  Qed.
  Lemma S_I : S * I = 1.
  Proof.
    destruct (HT 0%nat) as [_ H]; [lia|]. specialize (H 0%nat 0%nat (le_n 1) (le_n 1)). cbn in H. rewrite q1 in H. refine (eq_trans _ H). unfold tensor_matrix, s, inv_s. cbn. ring.
  Qed.
  Lemma G_I : G = I.
  Proof. transitivity (S * I * G); [rewrite S_I; ring|]. transitivity (S * G * I); [ring|]. rewrite S_G. ring. Qed.
  Lemma d1 : D (1 : A) = 0. Proof. rewrite <- (cq_1 A). apply dd_cq. Qed.
  Lemma D_inverse (x i : A) : x * i = 1 -> D i = - (i * i * D x).
  Proof.
    intros H. assert (K : D x * i + x * D i = 0) by (rewrite <- dd_mul, H; apply d1).
    transitivity (x * i * D i); [rewrite H; ring|]. transitivity (i * (D x * i + x * D i) - i * i * D x); [ring|]. rewrite K. ring.
  Qed.
  Lemma D_I : D I = - (I * I * D S). Proof. apply D_inverse, S_I. Qed.
  Lemma dopp (x : A) : D (- x) = - D x.
  Proof. assert (H : D (- x + x) = 0) by (replace (- x + x) with (0 : A) by ring; apply dd_0). rewrite dd_add in H.
    transitivity (D (- x) + D x - D x); [ring|]. rewrite H. ring. Qed.
  Lemma DD_I : D (D I) = (1 + 1) * (I * I * I * (D S * D S)) - I * I * D (D S).
  Proof. rewrite D_I, dopp, !dd_mul, D_I. ring. Qed.

  Lemma p18_forms : pv E p18_aspect = pv E p18_metric.
  Proof.
    rewrite p18_value. destruct p18_metric_value as (p & -> & [-> | ->]); unfold pv, mv; cbn [fold_right fst snd av dds]; fold s g inv_s;
      rewrite ?q3, ?q_2, ?q_4, ?q2, G_I, DD_I; ring.
  Qed.
  Lemma p18_aspect_value : pv E p18_aspect = (1 + 1 + 1) * (G * G) - (1 + 1) * D (D G).
  Proof.
    rewrite p18_forms. destruct p18_metric_value as (p & -> & [-> | ->]); unfold pv, mv; cbn [fold_right fst snd av dds]; fold s g inv_s; rewrite q3, q_2; ring.
  Qed.

  (** averages of the normalised error *)
  Lemma E_ee : EE (ep * ep) = 1.
  Proof.
    rewrite (st_eps _ _ _ HE). pose proof (st_isig _ _ _ HE 0%nat) as Hs. pose proof (st_sig_det _ _ _ HE 0%nat) as Ds.
    pose proof (st_sig _ _ _ HE 0%nat) as H2. pose proof (st_variance _ _ _ HE 0%nat) as HV.
    set (e := e_fn E (FErr 0)) in *. set (sg := e_sig E 0) in *. set (i := e_isig E 0) in *.
    assert (Di : det i).
    { unfold det. transitivity (i * sg * EE i); [transitivity (sg * i * EE i); [rewrite Hs; ring|ring]|].
      transitivity (i * (sg * EE i)); [ring|]. rewrite <- EE_det_l by exact Ds. rewrite Hs, EE_1. ring. }
    replace (i * e * (i * e)) with (i * (i * (e * e))) by ring. rewrite !EE_det_l by exact Di. rewrite <- HV, <- H2.
    transitivity (sg * i * (sg * i)); [ring|]. rewrite Hs. ring.
  Qed.
  Lemma halve (x : A) : x + x = 0 -> x = 0.
  Proof. intros H. transitivity (half * (x + x)); [transitivity ((half + half) * x); [rewrite half2|]; ring|]. rewrite H. ring. Qed.
  Lemma halves (x y : A) : x + x = y -> x = half * y.
  Proof. intros <-. transitivity ((half + half) * x); [rewrite half2|]; ring. Qed.
  Lemma E_G : G = EE (D ep * D ep).
  Proof. apply (st_metric _ _ _ HE 0%nat 0%nat 0%nat); cbn; lia. Qed.
  Lemma E_fourth : EE (ep * D (D (D (D ep)))) = EE (D (D ep) * D (D ep)) - (1 + 1) * D (D G).
  Proof.
    assert (H1 : EE (ep * D ep) = 0).
    { apply halve. assert (K : D (EE (ep * ep)) = 0) by (rewrite E_ee; apply d1). rewrite <- EE_dd, dd_mul, EE_add in K.
      rewrite <- K. f_equal. f_equal. ring. }
    assert (H2 : EE (ep * D (D ep)) = - G).
    { assert (K : D (EE (ep * D ep)) = 0) by (rewrite H1; apply dd_0). rewrite <- EE_dd, dd_mul, EE_add in K. rewrite E_G.
      transitivity (EE (D ep * D ep) + EE (ep * D (D ep)) - EE (D ep * D ep)); [ring|]. rewrite K. ring. }
    assert (H3 : EE (D ep * D (D ep)) = half * D G).
    { apply halves. rewrite E_G, <- EE_dd, dd_mul, EE_add. f_equal. f_equal. ring. }
    assert (H4 : EE (ep * D (D (D ep))) = - D G - half * D G).
    { assert (K : D (EE (ep * D (D ep))) = - D G) by (rewrite H2; apply dopp). rewrite <- EE_dd, dd_mul, EE_add in K.
      rewrite H3 in K. rewrite <- K. ring. }
    assert (H5 : EE (D ep * D (D (D ep))) = half * D (D G) - EE (D (D ep) * D (D ep))).
    { assert (K : D (EE (D ep * D (D ep))) = half * D (D G)) by (rewrite H3, dd_mul, dd_cq; ring).
      rewrite <- EE_dd, dd_mul, EE_add in K. rewrite <- K. ring. }
    assert (K : D (EE (ep * D (D (D ep)))) = - D (D G) - half * D (D G)).
    { rewrite H4, dd_sub, dopp, dd_mul, dd_cq. ring. }
    rewrite <- EE_dd, dd_mul, EE_add, H5 in K.
    transitivity (half * D (D G) - EE (D (D ep) * D (D ep)) + EE (ep * D (D (D (D ep)))) - (half * D (D G) - EE (D (D ep) * D (D ep)))); [ring|].
    rewrite K. transitivity (EE (D (D ep) * D (D ep)) - D (D G) - (half + half) * D (D G)); [ring|]. rewrite half2. ring.
  Qed.
  Lemma term_value : EE (jprod E term) = EE (ep * D (D (D (D ep)))).
  Proof. f_equal. unfold jprod, term, jv. cbn [fold_right fst snd dds]. ring. Qed.
  Lemma term_defect : EE (jprod E term) - pv E p18_aspect = defect E.
  Proof. rewrite term_value, E_fourth, p18_aspect_value. unfold defect. fold g. ring. Qed.

  Lemma open_closed : pv E aspect_open = pv E aspect_closed + (1 + 1) * e_cst E 0 * (S * S) * defect E.
  Proof.
    rewrite <- term_defect, p18_value. unfold aspect_open, aspect_closed, aspect_common, aspect_tail. cbn [app].
    unfold pv, mv. cbn [fold_right fst snd av dds]. fold s g inv_s. rewrite q1, q2, q3, q4, q_1, q_2, q_4, q_8. ring.
  Qed.

  Section Inverses.
    Variables iV iS : A.
    Hypotheses (HV : V * iV = 1) (HI : S * iS = 1).
    Lemma iS_I : iS = I.
    Proof. transitivity (S * I * iS); [rewrite S_I; ring|]. transitivity (S * iS * I); [ring|]. rewrite HI. ring. Qed.
    Notation sg := (e_sig E 0).
    Notation isg := (e_isig E 0).
    Lemma V_sg : V = sg * sg. Proof. symmetry. apply (st_sig _ _ _ HE). Qed.
    Lemma iV_isg : iV = isg * isg.
    Proof.
      pose proof (st_isig _ _ _ HE 0%nat) as H. transitivity (sg * isg * (sg * isg) * iV); [rewrite H; ring|].
      transitivity (V * iV * (isg * isg)); [rewrite V_sg; ring|]. rewrite HV. ring.
    Qed.
    Lemma closed_published : map (fun q => pv E (snd q)) (system aspect_closed) = published (e_cst E 0) U V iV S iS.
    Proof.
      unfold system, published. cbn [map snd].
      unfold mean_rhs, variance_rhs, aspect_closed, aspect_common, aspect_tail. cbn [app]. unfold pv, mv. cbn [fold_right fst snd av dds].
      fold s g inv_s. rewrite q1, q2, q3, q4, q_1, q_2, q_8, q_half, DD_I, D_I, iS_I, iV_isg.
      pose proof S_I as H. set (i := I) in *. set (z := S) in *. set (h := half). set (k := e_cst E 0). set (j := isg).
      set (V2 := D (D V)). set (V1 := D V). set (U1 := D U). set (U0 := U). set (z2 := D (D z)). set (z1 := D z).
      f_equal; [ring|]. f_equal; [rewrite V_sg; ring|]. f_equal.
      transitivity ((1 + 1) * (z * (z * i)) * U1 - U0 * (z * i * (z * i)) * z1 + (1 + 1 + (1 + 1)) * k * (z * i * (z * i)) + k * (z * i * (z * i)) * z2
        - (1 + 1) * k * (z * i * (z * i)) * (z1 * z1 * i) + k * (z * i * (z * i)) * (V1 * z1 * (j * j))
        - (1 + 1) * k * (z * (z * i) * V2 * (j * j)) + (1 + 1) * k * (z * (z * i) * V1 * V1 * (j * j) * (j * j))); [ring|]. rewrite H. ring.
    Qed.
  End Inverses.

  Lemma open_rates : pv E mean_rhs = rate E ["x"] dynamics (FField 0) /\ pv E variance_rhs = rate E ["x"] dynamics (FVar 0)
    /\ pv E aspect_open = rate E ["x"] dynamics s.
  Proof.
    assert (N1 : NoDup ["x"]) by (constructor; [intros []|constructor]).
    assert (N2 : ["x"] <> []) by discriminate. assert (N3 : ~ In "t" ["x"]) by (intros [H|[]]; discriminate).
    destruct (pkf_rates same same same same same ["x"] dynamics same_rearrangements N1 N2 N3 burgers_user burgers_spatial) as (_ & _ & H).
    destruct (H []) as (sy & Hs & K); [intros l v []|]. rewrite open_system in Hs. injection Hs as <-.
    specialize (K A E HE (fun l v (h : In (l, v) []) => match h with end) HT).
    assert (J : forall f r, In (time_derivative f, r) (system aspect_open) -> pv E r = rate E ["x"] dynamics f).
    { intros f r Hf. destruct (K _ _ Hf) as (f' & Hl & Hv). injection Hl as <-. exact Hv. }
    repeat split; apply J; cbn; auto.
  Qed.
End Values.

(** two worlds that only differ by random functions give the same value to expressions without averages *)
Lemma deterministic_value (A : RAlg) (E E' : env A) n v :
  only n (fun f => is_random f = false) (fun _ => False) v ->
  (forall f, is_random f = false -> e_fn E f = e_fn E' f) -> (forall i, e_sig E i = e_sig E' i) -> (forall i, e_isig E i = e_isig E' i) ->
  (forall k, e_cst E k = e_cst E' k) -> e_small E = e_small E' -> pv E v = pv E' v.
Proof.
  intros Hv Hf Hs Hi Hc Hm. unfold pv. induction v as [|[c m] v IH]; [reflexivity|]. cbn [fold_right fst snd]. f_equal.
  - f_equal. assert (Hm' : forall a, In a m -> av E a = av E' a).
    { intros a Ha. pose proof (Hv c m a (or_introl eq_refl) Ha) as H. destruct a as [f w|w l|k| |i|i]; cbn [av].
      - rewrite (Hf f H). reflexivity.
      - destruct l as [|j l]; [reflexivity|]. destruct (H j (or_introl eq_refl)).
      - apply Hc. - exact Hm. - apply Hs. - apply Hi. }
    clear Hv IH. unfold mv. induction m as [|a m IHm]; [reflexivity|]. cbn [fold_right]. rewrite (Hm' a (or_introl eq_refl)), IHm; [reflexivity|].
    intros b Hb. apply Hm'. right. exact Hb.
  - apply IH. intros c2 m2 a2 Hin Ha2. exact (Hv c2 m2 a2 (or_intror Hin) Ha2).
Qed.
