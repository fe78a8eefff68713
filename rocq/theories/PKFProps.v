(** Properties C46-C55, C58, C59, C92: the systems computed by SymbolicPKF. *)
From Coq Require Import List Arith ZArith QArith Qcanon Bool String Permutation.
From Verif Require Import PyBase PartialOrderModel TreeModel Reynolds PKFModel PKFSpec PKFTensor PKFMore PKFMain PKFClosure PKFInst PKFInstMore PKFExplicitMain PKFApplied.
Import ListNotations.
Close Scope Q_scope.
Close Scope Qc_scope.
Close Scope Z_scope.
Open Scope nat_scope.
Open Scope string_scope.
Open Scope list_scope.

(** C46: the rules of the internal closure are identities for the statistics of every error *)
Theorem C46_internal_closure : forall enum enumD enumC enumF enumU coords eqs,
  rearrangements enum enumD enumC enumF enumU -> coords <> [] ->
  exists cl, internal_closure enum coords eqs = Ok cl
    /\ forall (A : RAlg) (E : env A), statistics coords (List.length eqs) E -> closure_holds E cl.
Proof. exact main_closure. Qed.

Example C46_example : exists cl, internal_closure same ["x"] two_fields = Ok cl /\ closure_holds sys_env cl /\ List.length cl = 16.
Proof.
  destruct (C46_internal_closure same same same same same ["x"] two_fields same_rearrangements) as (cl & H & Hc);
    [discriminate|].
  exists cl. split; [exact H|]. split; [exact (Hc W sys_env sys_statistics)|].
  assert (K : match internal_closure same ["x"] two_fields with Ok cl => List.length cl | Err _ => 0 end = 16) by (vm_compute; reflexivity).
  rewrite H in K. exact K.
Qed.

(** C47: error_system is the first-order term of the dynamics around the mean, linear in the errors *)
Theorem C47_error_system : forall enum enumD enumC enumF enumU coords eqs,
  rearrangements enum enumD enumC enumF enumU -> coords <> [] -> user_system eqs ->
  exists sys, error_system enum enumC enumF coords eqs = Ok sys
    /\ map fst sys = map time_derivative (map FErr (seq 0 (List.length eqs)))
    /\ forall (A : RAlg) (E : env A), statistics coords (List.length eqs) E ->
         forall i p rhs, nth_error eqs i = Some p -> nth_error (map snd sys) i = Some rhs -> pv E rhs = taylor1 E p.
Proof. exact main_error. Qed.

Theorem C47_expansion : forall (A : RAlg) (E : env A) n p s, user_poly n p -> (forall c, dd c s = c0) ->
  exists R, pv (moved E s) p = (taylor0 E p + s * taylor1 E p + s * s * taylor2_coef E p + s * s * s * R)%ra.
Proof. intros. apply (expansion_remainder E n); assumption. Qed.

Theorem C47_linear : forall (A : RAlg) (E : env A) a b e1 e2 p, (forall c, dd c a = c0) -> (forall c, dd c b = c0) ->
  taylor1 (with_errors E (fun i => a * e1 i + b * e2 i)%ra) p
  = (a * taylor1 (with_errors E e1) p + b * taylor1 (with_errors E e2) p)%ra.
Proof. intros. apply (t_first_linear E); assumption. Qed.

Example C47_example : error_system same same same ["x"] burgers =
  Ok [(time_derivative (FErr 0),
       [(1%Q, [ACst 0; AJet (FErr 0) ["x"; "x"]]);
        ((-1)%Q, [AJet (FMean 0) []; AJet (FErr 0) ["x"]]);
        ((-1)%Q, [AJet (FMean 0) ["x"]; AJet (FErr 0) []])])].
Proof. vm_compute. reflexivity. Qed.

(** C48: variance_system is exact *)
Theorem C48_variance_system : forall enum enumD enumC enumF enumU coords eqs,
  rearrangements enum enumD enumC enumF enumU -> NoDup coords -> coords <> [] -> user_system eqs ->
  exists sys, variance_system enum enumD enumC enumF enumU coords eqs = Ok sys
    /\ exact_system coords eqs (map FVar (seq 0 (List.length eqs))) sys.
Proof. exact main_variance. Qed.

Example C48_example : variance_system same same same same same ["x"] burgers = Ok [burgers_variance].
Proof. vm_compute. reflexivity. Qed.

(** the hypotheses are met by two advected fields *)
Example C48_solution : rearrangements same same same same same /\ NoDup ["x"] /\ user_system two_fields
  /\ statistics ["x"] (List.length two_fields) sys_env /\ error_dynamics two_fields sys_env /\ mean_dynamics two_fields sys_env.
Proof.
  split; [exact same_rearrangements|]. split; [repeat constructor; intros []|].
  exact (conj two_fields_user (conj sys_statistics (conj sys_errors sys_mean))).
Qed.

(** C49: epsilon_system is exact *)
Theorem C49_epsilon_system : forall enum enumD enumC enumF enumU coords eqs,
  rearrangements enum enumD enumC enumF enumU -> NoDup coords -> coords <> [] -> user_system eqs ->
  exists sys, epsilon_system enum enumD enumC enumF enumU coords eqs = Ok sys
    /\ map fst sys = map time_derivative (map FEps (seq 0 (List.length eqs)))
    /\ (forall q, In q sys -> only (List.length eqs) (fun f => parameter no_tensor coords (List.length eqs) f /\ forall i, f <> FErr i)
          (normalised_error (List.length eqs)) (snd q))
    /\ forall (A : RAlg) (E : env A), statistics coords (List.length eqs) E -> error_dynamics eqs E ->
         forall q, In q sys -> holds E q.
Proof. exact main_epsilon. Qed.

Example C49_example : exists sys, epsilon_system same same same same same ["x"] two_fields = Ok sys
  /\ List.length sys = 2 /\ forall q, In q sys -> holds sys_env q.
Proof.
  destruct (C49_epsilon_system same same same same same ["x"] two_fields same_rearrangements) as (sys & H & Hl & _ & Hh);
    [repeat constructor; intros []|discriminate|exact two_fields_user|].
  exists sys. split; [exact H|]. split; [apply (f_equal (@List.length _)) in Hl; rewrite !map_length in Hl; exact Hl|].
  exact (Hh W sys_env sys_statistics sys_errors).
Qed.

(** C50: metric_system is exact, in every dimension, with one equation per entry of the upper triangle *)
Theorem C50_metric_system : forall enum enumD enumC enumF enumU coords eqs,
  rearrangements enum enumD enumC enumF enumU -> NoDup coords -> coords <> [] -> user_system eqs ->
  exists sys fs, metric_system enum enumD enumC enumF enumU coords eqs = Ok sys
    /\ exact_system coords eqs fs sys
    /\ NoDup fs /\ forall f, In f fs <-> exists i a b, i < List.length eqs /\ a <= b /\ b < List.length coords /\ f = FMet i a b.
Proof. exact main_metric_entries. Qed.

Example C50_example : exists sys, metric_system same same same same same ["x"] two_fields = Ok sys
  /\ List.length sys = 2 /\ forall q, In q sys -> holds sys_env q.
Proof.
  destruct (C50_metric_system same same same same same ["x"] two_fields same_rearrangements) as (sys & fs & H & (_ & _ & Hh) & _);
    [repeat constructor; intros []|discriminate|exact two_fields_user|].
  exists sys. split; [exact H|]. split; [|exact (Hh W sys_env sys_statistics sys_errors)].
  assert (K : match metric_system same same same same same ["x"] two_fields with Ok s => List.length s | Err _ => 0 end = 2) by (vm_compute; reflexivity).
  rewrite H in K. exact K.
Qed.

(** C51: cross_covariance_system is exact, one equation per pair, None for a single field *)
Theorem C51_cross_covariance_system : forall enum enumD enumC enumF enumU coords eqs,
  rearrangements enum enumD enumC enumF enumU -> NoDup coords -> coords <> [] -> user_system eqs ->
  exists s fs, cross_covariance_system enum enumD enumC enumF enumU coords eqs = Ok s
    /\ (s = None <-> List.length eqs = 1)
    /\ exact_system coords eqs fs (optional s)
    /\ NoDup fs /\ forall f, In f fs <-> exists i j, i < j /\ j < List.length eqs /\ f = FCov i j.
Proof. exact main_covariance_pairs. Qed.

Example C51_example : exists q, cross_covariance_system same same same same same ["x"] two_fields = Ok (Some [q])
  /\ fst q = time_derivative (FCov 0 1) /\ holds sys_env q.
Proof.
  destruct (C51_cross_covariance_system same same same same same ["x"] two_fields same_rearrangements) as (s & fs & H & _ & (Hl & _ & Hh) & _);
    [repeat constructor; intros []|discriminate|exact two_fields_user|].
  assert (K : match cross_covariance_system same same same same same ["x"] two_fields with
              | Ok (Some l) => map fst l = [time_derivative (FCov 0 1)] | _ => False end) by (vm_compute; reflexivity).
  rewrite H in K. destruct s as [[|q [|q' r]]|]; try contradiction; try discriminate K.
  exists q. split; [exact H|]. split; [cbn in K; injection K as K; exact K|].
  apply (Hh W sys_env sys_statistics sys_errors). left; reflexivity.
Qed.

(** C52: expectation_system is the average of the second-order dynamics *)
Theorem C52_expectation_system : forall enum enumD enumC enumF enumU coords eqs,
  rearrangements enum enumD enumC enumF enumU -> coords <> [] -> user_system eqs ->
  exists sys, expectation_system enum enumC enumF coords eqs = Ok sys
    /\ map fst sys = map time_derivative (map FMean (seq 0 (List.length eqs)))
    /\ forall (A : RAlg) (E : env A), statistics coords (List.length eqs) E ->
         forall i p rhs, nth_error eqs i = Some p -> nth_error (map snd sys) i = Some rhs ->
           pv E rhs = EE (taylor0 E p + taylor1 E p + taylor2_coef E p)%ra.
Proof. exact main_expectation. Qed.

Example C52_example : expectation_system same same same ["x"] burgers =
  Ok [(time_derivative (FMean 0),
       [(1%Q, [ACst 0; AJet (FMean 0) ["x"; "x"]]);
        ((-1)%Q, [AJet (FMean 0) []; AJet (FMean 0) ["x"]]);
        ((-1 # 2)%Q, [AJet (FVar 0) ["x"]])])].
Proof. vm_compute. reflexivity. Qed.

(** C53, C54: derivatives of inverses, and the equations of in_diffusion and in_aspect *)
Theorem C53_inverse_derivative : forall (A : RAlg) d (nu g : @matrix A) c, inverse_upto d (1 # 2) nu g ->
  mat_eq d (fun a b => dd c (nu a b))
    (fun a b => (cq (Q2Qc (-2)) * mat_mul d nu (mat_mul d (fun a b => dd c (g a b)) nu) a b)%ra).
Proof. intros A d nu g c. apply (inverse_derivative d (1 # 2) (-2)). reflexivity. Qed.

Theorem C54_inverse_derivative : forall (A : RAlg) d (s g : @matrix A) c, inverse_upto d 1 s g ->
  mat_eq d (fun a b => dd c (s a b))
    (fun a b => (cq (Q2Qc (-1)) * mat_mul d s (mat_mul d (fun a b => dd c (g a b)) s) a b)%ra).
Proof. intros A d s g c. apply (inverse_derivative d 1 (-1)). reflexivity. Qed.

Theorem C53_in_diffusion : forall enum enumD enumC enumF enumU coords eqs,
  rearrangements enum enumD enumC enumF enumU -> NoDup coords -> coords <> [] -> user_system eqs ->
  forall closure, (forall l v, In (l, v) closure -> only (List.length eqs) (deterministic_parameter diffusion_tensor coords (List.length eqs))
                     (normalised_error (List.length eqs)) v) ->
  exists fs sys, in_diffusion enum enumD enumC enumF enumU coords eqs closure = Ok sys
    /\ map fst sys = map time_derivative fs /\ NoDup fs
    /\ (forall g, In g fs <-> described coords (List.length eqs) false FDif g)
    /\ (forall q, In q sys -> only (List.length eqs) (fun f => described coords (List.length eqs) true FDif f
          \/ (exists i a b, i < List.length eqs /\ a <= b /\ b < List.length coords /\ f = FInvDif i a b) \/ external f)
          (normalised_error (List.length eqs)) (snd q))
    /\ forall (A : RAlg) (E : env A), statistics coords (List.length eqs) E -> error_dynamics eqs E -> mean_dynamics eqs E ->
         closure_holds E closure -> tensor_is coords (List.length eqs) E FDif FInvDif (1 # 2) -> forall q, In q sys -> holds E q.
Proof. exact main_in_diffusion. Qed.

Theorem C54_in_aspect : forall enum enumD enumC enumF enumU coords eqs,
  rearrangements enum enumD enumC enumF enumU -> NoDup coords -> coords <> [] -> user_system eqs ->
  forall closure, (forall l v, In (l, v) closure -> only (List.length eqs) (deterministic_parameter aspect_tensor coords (List.length eqs))
                     (normalised_error (List.length eqs)) v) ->
  exists fs sys, in_aspect enum enumD enumC enumF enumU coords eqs closure = Ok sys
    /\ map fst sys = map time_derivative fs /\ NoDup fs
    /\ (forall g, In g fs <-> described coords (List.length eqs) true FAsp g)
    /\ (forall q, In q sys -> only (List.length eqs) (fun f => described coords (List.length eqs) true FAsp f
          \/ (exists i a b, i < List.length eqs /\ a <= b /\ b < List.length coords /\ f = FInvAsp i a b) \/ external f)
          (normalised_error (List.length eqs)) (snd q))
    /\ forall (A : RAlg) (E : env A), statistics coords (List.length eqs) E -> error_dynamics eqs E -> mean_dynamics eqs E ->
         closure_holds E closure -> tensor_is coords (List.length eqs) E FAsp FInvAsp 1 -> forall q, In q sys -> holds E q.
Proof. exact main_in_aspect. Qed.

Example C53_solution : tensor_is ["x"] (List.length two_fields) sys_env FDif FInvDif (1 # 2)
  /\ tensor_is ["x"] (List.length two_fields) sys_env FAsp FInvAsp 1 /\ closure_holds sys_env [].
Proof. split; [exact sys_diffusion|]. split; [exact sys_aspect|]. intros l v []. Qed.

Example C53_example : exists sys, in_diffusion same same same same same ["x"] two_fields [] = Ok sys
  /\ List.length sys = 6 /\ forall q, In q sys -> holds sys_env q.
Proof.
  destruct (C53_in_diffusion same same same same same ["x"] two_fields same_rearrangements) with (closure := @nil (list jet * list (Q * list atom)))
    as (fs & sys & H & _ & _ & _ & _ & Hh);
    [repeat constructor; intros []|discriminate|exact two_fields_user|intros l v []|].
  exists sys. split; [exact H|]. split.
  - assert (K : match in_diffusion same same same same same ["x"] two_fields [] with Ok s => List.length s | Err _ => 0 end = 6) by (vm_compute; reflexivity).
    rewrite H in K. exact K.
  - exact (Hh W sys_env sys_statistics sys_errors sys_mean (fun l v H => match H with end) sys_diffusion).
Qed.

Example C54_example : exists sys, in_aspect same same same same same ["x"] two_fields [] = Ok sys
  /\ List.length sys = 7 /\ forall q, In q sys -> holds sys_env q.
Proof.
  destruct (C54_in_aspect same same same same same ["x"] two_fields same_rearrangements) with (closure := @nil (list jet * list (Q * list atom)))
    as (fs & sys & H & _ & _ & _ & _ & Hh);
    [repeat constructor; intros []|discriminate|exact two_fields_user|intros l v []|].
  exists sys. split; [exact H|]. split.
  - assert (K : match in_aspect same same same same same ["x"] two_fields [] with Ok s => List.length s | Err _ => 0 end = 7) by (vm_compute; reflexivity).
    rewrite H in K. exact K.
  - exact (Hh W sys_env sys_statistics sys_errors sys_mean (fun l v H => match H with end) sys_aspect).
Qed.

(** C55: the parametric dynamics in metric form is a closed set of equations, up to the averages
    that remain; the one in diffusion form is not *)
Theorem C55_in_metric : forall enum enumD enumC enumF enumU coords eqs,
  rearrangements enum enumD enumC enumF enumU -> NoDup coords -> coords <> [] -> user_system eqs ->
  forall closure, (forall l v, In (l, v) closure -> only (List.length eqs) (deterministic_parameter no_tensor coords (List.length eqs))
                     (normalised_error (List.length eqs)) v) ->
  exists fs sys, in_metric enum enumD enumC enumF enumU coords eqs closure = Ok sys
    /\ map fst sys = map time_derivative fs /\ NoDup fs
    /\ (forall g, In g fs <-> described coords (List.length eqs) true FMet g)
    /\ (forall q, In q sys -> only (List.length eqs) (fun f => described coords (List.length eqs) true FMet f \/ external f)
          (normalised_error (List.length eqs)) (snd q))
    /\ forall (A : RAlg) (E : env A), statistics coords (List.length eqs) E -> error_dynamics eqs E -> mean_dynamics eqs E ->
         closure_holds E closure -> forall q, In q sys -> holds E q.
Proof. exact main_in_metric. Qed.

Example C55_example : exists sys, in_metric same same same same same ["x"] two_fields [] = Ok sys
  /\ List.length sys = 7 /\ forall q, In q sys -> holds sys_env q.
Proof.
  destruct (C55_in_metric same same same same same ["x"] two_fields same_rearrangements) with (closure := @nil (list jet * list (Q * list atom)))
    as (fs & sys & H & _ & _ & _ & _ & Hh);
    [repeat constructor; intros []|discriminate|exact two_fields_user|intros l v []|].
  exists sys. split; [exact H|]. split.
  - assert (K : match in_metric same same same same same ["x"] two_fields [] with Ok s => List.length s | Err _ => 0 end = 7) by (vm_compute; reflexivity).
    rewrite H in K. exact K.
  - exact (Hh W sys_env sys_statistics sys_errors sys_mean (fun l v H => match H with end)).
Qed.

Theorem C55_in_diffusion_closed_refuted : exists eqs sys, user_system eqs
  /\ in_diffusion same same same same same ["x"] eqs [] = Ok sys
  /\ (exists q c m w, In q sys /\ In (c, m) (snd q) /\ In (AJet (FCov 0 1) w) m)
  /\ ~ In (time_derivative (FCov 0 1)) (map fst sys).
Proof. destruct diffusion_open as (sys & H). exists two_fields, sys. exact (conj two_fields_user H). Qed.

(** the external closure is applied: in the three forms of the dynamics there remain only averages of
    the computed equations that the closure does not give *)
Theorem C55_closure_applied : forall enum enumD enumC enumF enumU coords eqs,
  rearrangements enum enumD enumC enumF enumU -> NoDup coords -> coords <> [] -> user_system eqs ->
  forall closure : list (list jet * poly), (forall l v, In (l, v) closure -> forall l', ~ averaged_in l' v) ->
  exists e v c m, expectation_system enum enumC enumF coords eqs = Ok e /\ variance_system enum enumD enumC enumF enumU coords eqs = Ok v
    /\ cross_covariance_system enum enumD enumC enumF enumU coords eqs = Ok c /\ metric_system enum enumD enumC enumF enumU coords eqs = Ok m
    /\ forall s, (in_metric enum enumD enumC enumF enumU coords eqs closure = Ok s
                 \/ in_diffusion enum enumD enumC enumF enumU coords eqs closure = Ok s
                 \/ in_aspect enum enumD enumC enumF enumU coords eqs closure = Ok s) ->
       forall q l, In q s -> averaged_in l (snd q) ->
         ~ In l (map fst closure) /\ exists q0, In q0 (e ++ v ++ optional c ++ m) /\ averaged_in l (snd q0).
Proof. exact main_applied. Qed.

(** the closure of the Burgers dynamics leaves no average *)
Example C55_applied_example :
  let closure := [([(FEps 0, []); (FEps 0, ["x"; "x"; "x"; "x"])],
                   [(3%Q, [AJet (FMet 0 0 0) []; AJet (FMet 0 0 0) []]); ((-2)%Q, [AJet (FMet 0 0 0) ["x"; "x"]])])] in
  exists s, in_diffusion same same same same same ["x"] burgers closure = Ok s /\ forall q l, In q s -> ~ averaged_in l (snd q).
Proof.
  intros closure. destruct (in_diffusion same same same same same ["x"] burgers closure) as [s|] eqn:Hs; [|vm_compute in Hs; discriminate].
  exists s. split; [reflexivity|]. intros q l Hq Hl.
  destruct (C55_closure_applied same same same same same ["x"] burgers same_rearrangements) with (closure := closure)
    as (e & v & c & m & He & Hv & Hc & Hm & H); [constructor; [intros []|constructor]|discriminate|exact burgers_user| |].
  { intros l' v [E|[]] l'' Hl''. injection E as <- <-. apply averaged_iff in Hl''. vm_compute in Hl''. exact Hl''. }
  destruct (H s (or_intror (or_introl Hs)) q l Hq Hl) as (H1 & q0 & H2 & H3). apply H1.
  assert (K : flat_map (fun q => exp_atoms (snd q)) (e ++ v ++ optional c ++ m) = [[(FEps 0, []); (FEps 0, ["x"; "x"; "x"; "x"])]]).
  { clear - He Hv Hc Hm. vm_compute in He, Hv, Hc, Hm. apply Ok_inj in He, Hv, Hc, Hm. subst. vm_compute. reflexivity. }
  assert (G : In l (flat_map (fun q => exp_atoms (snd q)) (e ++ v ++ optional c ++ m))) by (apply in_flat_map; exists q0; split; [exact H2|apply averaged_iff, H3]).
  rewrite K in G. destruct G as [<-|[]]. left. reflexivity.
Qed.

(** C58: unclosed_terms is exactly what remains *)
Theorem C58_unclosed_terms : forall enum enumD enumC enumF enumU coords eqs,
  rearrangements enum enumD enumC enumF enumU -> NoDup coords -> coords <> [] -> user_system eqs ->
  forall closure, (forall l v, In (l, v) closure -> only (List.length eqs) (deterministic_parameter no_tensor coords (List.length eqs))
                     (normalised_error (List.length eqs)) v) ->
  exists sys u, in_metric enum enumD enumC enumF enumU coords eqs closure = Ok sys
    /\ unclosed_terms enum enumD enumC enumF enumU coords eqs closure = Ok u /\ NoDup u
    /\ forall l, In l u <-> exists q, In q sys /\ averaged_in l (snd q).
Proof. exact main_unclosed. Qed.

Example C58_example : unclosed_terms same same same same same ["x"] burgers [] = Ok [[(FEps 0, []); (FEps 0, ["x"; "x"; "x"; "x"])]].
Proof. vm_compute. reflexivity. Qed.

(** a term reported as unclosed may be a parameter: expectation_system does not use the substitution tree *)
Theorem C58_unclosed_is_unknown_refuted : exists eqs l, unclosed_terms same same same same same ["x"] eqs [] = Ok [l]
  /\ forall (A : RAlg) (E : env A), statistics ["x"] (List.length eqs) E -> EE (jprod E l) = e_fn E (FMet 0 0 0).
Proof. exists slope, [(FEps 0, ["x"]); (FEps 0, ["x"])]. exact slope_unclosed. Qed.

(** C59: averages of another random function abort the closure *)
Theorem C59_foreign_random : forall enum enumD enumC enumF enumU coords eqs,
  rearrangements enum enumD enumC enumF enumU -> NoDup coords -> coords <> [] ->
  forall p, averages_random p ->
    (apply_internal_closure enum enumD enumC enumU coords eqs p = Err RuntimeError
       <-> exists l f k, averaged_in l p /\ univariate l f k /\ ~ normalised_error (List.length eqs) f)
    /\ ((forall l f k, averaged_in l p -> univariate l f k -> normalised_error (List.length eqs) f) ->
        exists q, apply_internal_closure enum enumD enumC enumU coords eqs p = Ok q).
Proof. exact main_abort. Qed.

Example C59_example :
  apply_internal_closure same same same same ["x"] burgers [(1%Q, [AExp [] [(FErr 0, []); (FErr 0, ["x"])]])] = Err RuntimeError
  /\ apply_internal_closure same same same same ["x"] burgers [(1%Q, [AExp [] [(FEps 0, ["x"]); (FEps 0, ["x"])]])]
     = Ok [(1%Q, [AJet (FMet 0 0 0) []])].
Proof. split; vm_compute; reflexivity. Qed.

(** C92: without a spatial coordinate nothing is computed *)
Theorem C92_no_space : forall enum enumD enumC enumF enumU eqs closure, eqs <> [] ->
  expectation_system enum enumC enumF [] eqs = Err IndexError
  /\ error_system enum enumC enumF [] eqs = Err IndexError
  /\ variance_system enum enumD enumC enumF enumU [] eqs = Err IndexError
  /\ metric_system enum enumD enumC enumF enumU [] eqs = Err IndexError
  /\ in_metric enum enumD enumC enumF enumU [] eqs closure = Err IndexError
  /\ in_diffusion enum enumD enumC enumF enumU [] eqs closure = Err IndexError
  /\ in_aspect enum enumD enumC enumF enumU [] eqs closure = Err IndexError.
Proof. exact main_no_space. Qed.

Example C92_example : in_metric same same same same same [] [ [(1%Q, [AJet (FField 0) []])] ] [] = Err IndexError.
Proof. vm_compute. reflexivity. Qed.

Print Assumptions C46_internal_closure.
Print Assumptions C47_error_system.
Print Assumptions C47_expansion.
Print Assumptions C47_linear.
Print Assumptions C48_variance_system.
Print Assumptions C49_epsilon_system.
Print Assumptions C50_metric_system.
Print Assumptions C51_cross_covariance_system.
Print Assumptions C52_expectation_system.
Print Assumptions C53_inverse_derivative.
Print Assumptions C54_inverse_derivative.
Print Assumptions C53_in_diffusion.
Print Assumptions C54_in_aspect.
Print Assumptions C55_in_metric.
Print Assumptions C55_in_diffusion_closed_refuted.
Print Assumptions C55_closure_applied.
Print Assumptions C58_unclosed_terms.
Print Assumptions C58_unclosed_is_unknown_refuted.
Print Assumptions C59_foreign_random.
Print Assumptions C92_no_space.
