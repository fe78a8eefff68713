(** Systems with their tangent linear equations: Burgers' equation and a reaction of two fields. *)
From Coq Require Import List Arith ZArith QArith Qreals Reals String Lia Lra Permutation FunctionalExtensionality.
From Verif Require Import PyBase PyBaseFacts Scalars FieldFacts SymModel RandomProofs PDEModel StrModel CodegenModel CodegenSpec CodegenProofs CodegenRun CodegenProps
  FDExprModel FDSpec FDReal GridModel GridSpec ConsistSpec ConsistModel LineModel LineSpec LineProofs TangentSysSpec TangentSysProofs.
Import ListNotations.
Close Scope Q_scope.
Open Scope nat_scope.
Open Scope string_scope.
Open Scope list_scope.

(** ** the prognostic function of an equation, for every enumeration of the sets *)
Definition time_first (d : sx) : bool := match d with SDer _ ((c, _) :: _) => String.eqb c "t" | _ => false end.
Lemma prognostic_fold f l acc : Forall (fun d => exists h c k v, d = SDer h ((c, k) :: v) /\ (c = "t" -> h = f)) l ->
  foldM (fun acc d => c <- first_variable d ;;
                      if String.eqb c "t" then match d with SDer f _ => Ok (acc ++ [f]) | _ => Ok acc end else Ok acc) acc l
    = Ok (acc ++ repeat f (List.length (filter time_first l))).
Proof.
  intros F. revert acc. induction F as [|d l (h & c & k & v & -> & H) F IH]; intros acc; [cbn; rewrite app_nil_r; reflexivity|].
  cbn [foldM first_variable bind filter time_first]. destruct (String.eqb_spec c "t") as [->|N].
  - rewrite (H eq_refl). cbn [bind]. rewrite IH, <- app_assoc. reflexivity.
  - cbn [bind]. apply IH.
Qed.
Lemma filter_length_perm {A} (p : A -> bool) l l' : Permutation l l' -> List.length (filter p l) = List.length (filter p l').
Proof. intros P. induction P; cbn; repeat match goal with |- context [if ?b then _ else _] => destruct b end; cbn; congruence. Qed.
Lemma prognostic_one enum f q : (forall l, Permutation (enum l) l) ->
  Forall (fun d => exists h c k v, d = SDer h ((c, k) :: v) /\ (c = "t" -> h = f)) (eq_atoms is_derivative q) ->
  List.length (filter time_first (eq_atoms is_derivative q)) = 1 -> prognostic_of enum q = Ok [f].
Proof.
  intros E F L. unfold prognostic_of. rewrite (prognostic_fold f).
  - rewrite (filter_length_perm _ _ _ (E _)), L. reflexivity.
  - rewrite Forall_forall in *. intros d Hd. apply F. apply (Permutation_in _ (E _) Hd).
Qed.

(** ** Burgers *)
Definition line_p : sx := SApp "p" [time; SSym Plain "x"].
(** the tangent linear Burgers equation, as a user writes it *)
Definition burgers_pert : list equation :=
  [(SDer line_p [("t", 1)],
    SAdd [SMul [SNum (-1); line_p; SDer line_u [("x", 1)]]; SMul [SNum (-1); line_u; SDer line_p [("x", 1)]]; SMul [line_kappa; SDer line_p [("x", 2)]]])].
Definition burgers_both_S : pdes :=
  {| s_functions := [line_u; line_p]; s_prognostic := [line_u; line_p]; s_constant := []; s_exogenous := [];
     s_coordinates := [time; SSym Plain "x"]; s_spatial := [SSym Plain "x"]; s_trainable := [];
     s_constants := [line_kappa];
     s_derivatives := [SDer line_u [("x", 2)]; SDer line_u [("x", 1)]; SDer line_p [("x", 1)]; SDer line_p [("x", 2)]]; s_max_order := 2 |}.
Ltac one_time := repeat first [apply Forall_nil | apply Forall_cons; [do 4 eexists; split; [reflexivity|intros Q; first [discriminate Q|reflexivity]]|]].
Lemma burgers_both_ok enum : (forall l, Permutation (enum l) l) -> pde_system enum (burgers ++ burgers_pert) = Ok burgers_both_S.
Proof.
  intros E. unfold pde_system, get_prognostic. cbn [mapM burgers burgers_pert app].
  rewrite (prognostic_one enum line_u) by (auto; vm_compute; one_time). cbn [bind].
  rewrite (prognostic_one enum line_p) by (auto; vm_compute; one_time). cbn [bind List.concat app].
  unfold get_constant.
  match goal with |- context [difference ?a ?b] => replace (difference a b) with (@nil sx) by (vm_compute; reflexivity) end.
  rewrite (enum_nil enum E). vm_compute. reflexivity.
Qed.
Ltac flat_tac A := unfold line_u, line_p, line_kappa;
  repeat first [apply Forall_nil | apply Forall_cons | apply flat_add | apply flat_mul
                | apply flat_num | apply flat_sym; simpl; now auto | apply flat_app; apply A | apply flat_pow; [| |reflexivity]
                | apply flat_der; [apply A|discriminate|repeat constructor; intros []
                                  |intros [?|[]]; discriminate|intros p [<-|[]]; discriminate]].
Lemma burgers_both_translatable : translatable burgers_both_S (burgers ++ burgers_pert).
Proof.
  split.
  - reflexivity.
  - intros f [<-|[<-|[]]]; do 2 eexists; (split; [reflexivity|apply args_line]).
  - intros q [<-|[<-|[]]]; cbn [snd]; flat_tac args_line.
  - intros c [<-|[]]. eexists. reflexivity.
  - intros h v w H H' C. cbn in H, H'. specialize (C "x").
    repeat (destruct H as [H|H]; [injection H as <- <-|]); try destruct H;
    repeat (destruct H' as [H'|H']; [try discriminate H'; injection H' as <-|]); try destruct H'; try reflexivity; discriminate C.
  - vm_compute. repeat constructor; simpl; intuition discriminate.
  - intros x Hx Hr. vm_compute in Hx. simpl in Hr. intuition (subst; discriminate).
Qed.
Definition burgers_name (f : sx) : sx := line_p.
Lemma burgers_tangents rpow : tangent_equations rpow burgers_name burgers burgers_pert.
Proof.
  repeat constructor. exists line_u. split; [reflexivity|]. split; [reflexivity|]. intros rho kappa delta js. cbn. unfold a_add, a_mul, a_num, burgers_name. cbn.
  unfold Q2R. cbn. field.
Qed.
Lemma burgers_polynomial q : In q burgers -> polynomial (snd q).
Proof. intros [<-|[]]. cbn [snd]. unfold line_u, line_kappa. repeat constructor. Qed.
Lemma burgers_new f : In f (evolving burgers) -> ~ occurs burgers (burgers_name f).
Proof. intros _ (q & [<-|[]] & H). vm_compute in H. intuition discriminate. Qed.
Ltac space_tac := intros f v c (q & Hq & H) Hc; cbn in Hq; repeat (destruct Hq as [<-|Hq]; [vm_compute in H; intuition (try discriminate; match goal with K : SDer _ _ = SDer _ _ |- _ => injection K as <- <-; exact Hc end)|]); destruct Hq.
Lemma burgers_generated L kappa n cst enum ord g caches attr : line_class L kappa n enum ord g caches attr ->
  generated_class ["x"] [n] (fun _ => kappa) cst enum burgers burgers_S ord caches attr.
Proof.
  intros LC. split.
  - exact (lc_enum _ _ _ _ _ _ _ _ LC).
  - apply burgers_ok. exact (lc_enum _ _ _ _ _ _ _ _ LC).
  - exact burgers_translatable.
  - reflexivity.
  - space_tac.
  - exact (lc_ord _ _ _ _ _ _ _ _ LC).
  - exact (lc_caches _ _ _ _ _ _ _ _ LC).
  - intros c [<-|[]]. exact (lc_kappa _ _ _ _ _ _ _ _ LC).
  - intros f [].
Qed.
Lemma burgers_both_generated L kappa n cst enum ord g caches attr : line_class L kappa n enum ord g caches attr ->
  generated_class ["x"] [n] (fun _ => kappa) cst enum (burgers ++ burgers_pert) burgers_both_S ord caches attr.
Proof.
  intros LC. split.
  - exact (lc_enum _ _ _ _ _ _ _ _ LC).
  - apply burgers_both_ok. exact (lc_enum _ _ _ _ _ _ _ _ LC).
  - exact burgers_both_translatable.
  - reflexivity.
  - space_tac.
  - exact (lc_ord _ _ _ _ _ _ _ _ LC).
  - exact (lc_caches _ _ _ _ _ _ _ _ LC).
  - intros c [<-|[]]. exact (lc_kappa _ _ _ _ _ _ _ _ LC).
  - intros f [].
Qed.

(** ** a reaction of two fields with a source F(x): u^2 v *)
Definition line_v : sx := SApp "v" [time; SSym Plain "x"].
Definition line_q : sx := SApp "q" [time; SSym Plain "x"].
Definition line_F : sx := SApp "F" [SSym Plain "x"].
Definition square (f : sx) : sx := SPow f (SNum 2).
Definition reaction : list equation :=
  [(SDer line_u [("t", 1)], SAdd [SMul [square line_u; line_v]; SMul [SNum (-1); line_u]; SMul [line_kappa; SDer line_u [("x", 2)]]]);
   (SDer line_v [("t", 1)], SAdd [line_F; SMul [SNum (-1); square line_u; line_v]])].
Definition reaction_name (f : sx) : sx := if sx_eq_dec f line_u then line_p else line_q.
Definition reaction_pert : list equation :=
  [(SDer line_p [("t", 1)], SAdd [SMul [SNum 2; line_u; line_v; line_p]; SMul [square line_u; line_q]; SMul [SNum (-1); line_p]; SMul [line_kappa; SDer line_p [("x", 2)]]]);
   (SDer line_q [("t", 1)], SAdd [SMul [SNum (-2); line_u; line_v; line_p]; SMul [SNum (-1); square line_u; line_q]])].
Definition run_system (eqs : list equation) : pdes := match pde_system (fun l => l) eqs with Ok sys => sys | Err _ => burgers_S end.
Lemma reaction_tangents rpow : (forall a n, rpow a (INR n) = (a ^ n)%R) -> tangent_equations rpow reaction_name reaction reaction_pert.
Proof.
  intros POW.
  assert (P1 : forall a, rpow a (Q2R 1) = a) by (intros; replace (Q2R 1) with (INR 1) by (unfold Q2R; cbn; lra); rewrite POW; cbn; lra).
  repeat constructor.
  - exists line_u. split; [reflexivity|]. split; [reflexivity|]. intros rho kappa delta js. cbn. unfold a_add, a_mul, a_num, a_pow. cbn. rewrite P1.
    unfold Q2R. cbn. field.
  - exists line_v. split; [reflexivity|]. split; [reflexivity|]. intros rho kappa delta js. cbn. unfold a_add, a_mul, a_num, a_pow. cbn. rewrite P1.
    unfold Q2R. cbn. field.
Qed.
Lemma reaction_polynomial q : In q reaction -> polynomial (snd q).
Proof. intros [<-|[<-|[]]]; cbn [snd]; unfold square, line_u, line_v, line_F, line_kappa; repeat constructor; apply (po_pow _ 2); constructor. Qed.
Lemma reaction_new f : In f (evolving reaction) -> ~ occurs reaction (reaction_name f).
Proof. intros [<-|[<-|[]]] (q & [<-|[<-|[]]] & H); vm_compute in H; intuition discriminate. Qed.
Lemma args_x : simple_args [SSym Plain "x"].
Proof. intros y Hy; simpl in Hy; intuition (subst; auto). Qed.
Ltac flat_more := unfold square, line_u, line_v, line_p, line_q, line_F, line_kappa;
  repeat first [apply Forall_nil | apply Forall_cons | apply flat_add | apply flat_mul
                | apply flat_num | apply flat_sym; vm_compute; now auto | apply flat_app; first [apply args_line|apply args_x] | apply flat_pow; [| |reflexivity]
                | apply flat_der; [apply args_line|discriminate|repeat constructor; intros []
                                  |intros [?|[]]; discriminate|intros p [<-|[]]; discriminate]].
Ltac translatable_run := split;
  [vm_compute; reflexivity
  |intros f Hf; vm_compute in Hf; repeat (destruct Hf as [<-|Hf]; [do 2 eexists; split; [reflexivity|apply args_line]|]); destruct Hf
  |intros q Hq; cbn in Hq; repeat (destruct Hq as [<-|Hq]; [cbn [snd]; flat_more|]); destruct Hq
  |intros c Hc; vm_compute in Hc; repeat (destruct Hc as [<-|Hc]; [eexists; reflexivity|]); destruct Hc
  |intros h v w H H' C; vm_compute in H, H'; specialize (C "x");
    repeat (destruct H as [H|H]; [injection H as <- <-|]); try destruct H;
    repeat (destruct H' as [H'|H']; [try discriminate H'; injection H' as <-|]); try destruct H'; try reflexivity; discriminate C
  |vm_compute; repeat constructor; simpl; intuition discriminate
  |intros x Hx Hr; vm_compute in Hx; simpl in Hr; intuition (subst; discriminate)].
Lemma reaction_translatable : translatable (run_system reaction) reaction.
Proof. translatable_run. Qed.
Lemma reaction_both_translatable : translatable (run_system (reaction ++ reaction_pert)) (reaction ++ reaction_pert).
Proof. translatable_run. Qed.
Ltac generated_run Hc T := split;
  [intros; apply Permutation_refl|vm_compute; reflexivity|exact T|vm_compute; reflexivity|space_tac|intros; apply Permutation_refl|exact Hc
  |intros c H; vm_compute in H; repeat (destruct H as [<-|H]; [reflexivity|]); destruct H
  |intros f H; vm_compute in H; repeat (destruct H as [<-|H]; [reflexivity|]); destruct H].
Definition reaction_attr (kappa : R) (F : list nat -> R) (s : string) : res (list nat -> R) :=
  if String.eqb s "kappa" then Ok (fun _ => kappa) else if String.eqb s "F" then Ok F else Err AttributeError.
Lemma reaction_generated n kappa F d : after_history ["x"] [n] [] d ->
  generated_class ["x"] [n] (fun _ => kappa) (fun _ => F) (fun l => l) reaction (run_system reaction) (fun l => l) (fun _ _ _ => d) (reaction_attr kappa F).
Proof. intros Hd. assert (HCA : forall (t : R) (v : list (string * nat)) (a : list nat -> R), exists hist, after_history ["x"] [n] hist d) by eauto. generated_run HCA reaction_translatable. Qed.
Lemma reaction_both_generated n kappa F d : after_history ["x"] [n] [] d ->
  generated_class ["x"] [n] (fun _ => kappa) (fun _ => F) (fun l => l) (reaction ++ reaction_pert) (run_system (reaction ++ reaction_pert)) (fun l => l) (fun _ _ _ => d) (reaction_attr kappa F).
Proof. intros Hd. assert (HCA : forall (t : R) (v : list (string * nat)) (a : list nat -> R), exists hist, after_history ["x"] [n] hist d) by eauto. generated_run HCA reaction_both_translatable. Qed.
