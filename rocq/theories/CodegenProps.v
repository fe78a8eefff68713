(** Property theorems: the generated trend. *)
From Coq Require Import List Arith Bool String QArith ZArith Permutation Lia.
From Verif Require Import PyBase PyBaseFacts SymModel RandomProofs PDEModel PDESpec PDEProofs PDEProps StrModel StrSpec StrProofs
  CodegenModel CodegenSpec CodegenProofs CodegenRun CodegenFail.
Import ListNotations.
Close Scope Q_scope.
Close Scope Z_scope.
Open Scope nat_scope.
Open Scope string_scope.
Open Scope list_scope.

(** C29 *)
Theorem C29_rows (V : Type) (v_num : Q -> V) (v_add v_mul v_pow : V -> V -> V) (v_zero v_one : V)
    (disc : list (string * nat) -> V -> res V) (attr : string -> res V) (exogenous : option (list V))
    (rho kappa : sx -> V) (delta : list (string * nat) -> V -> V)
    enum (E : forall l, Permutation (enum l) l) eqs (S : pdes) state :
  pde_system enum eqs = Ok S -> translatable S eqs ->
  holds enum S rho kappa delta disc attr exogenous state ->
  exists prog, trend_program enum S eqs = Ok prog /\
    run_trend V v_num v_add v_mul v_pow v_zero v_one disc attr exogenous prog state =
      Ok (map (fun q => mean V v_num v_add v_mul v_pow v_zero v_one rho kappa delta (snd q)) eqs, state).
Proof.
  intros B T H. eexists.
  pose proof (trend_correct V v_num v_add v_mul v_pow v_zero v_one disc attr exogenous rho kappa delta enum E eqs S state B T H) as X.
  rewrite map_map in X. exact X.
Qed.
Print Assumptions C29_rows.

(** D_t u = - u D_x u + kappa D_x^2 u + F(t,x) + h(x); at the state [5], with D_x = twice,
    D_x^2 = 4 times, kappa = 3, F = 7, h = 11 *)
Definition forced : list equation :=
  [(SDer u_ [("t", 1)],
    SAdd [SMul [SNum (-1); u_; SDer u_ [("x", 1)]];
          SMul [SSym Plain "\kappa"; SDer u_ [("x", 2)]]; F_; h_])].
Definition forced_system : pdes :=
  {| s_functions := [u_; F_; h_]; s_prognostic := [u_]; s_constant := [h_]; s_exogenous := [F_];
     s_coordinates := [time; x_]; s_spatial := [x_]; s_trainable := [];
     s_constants := [SSym Plain "\kappa"];
     s_derivatives := [SDer u_ [("x", 1)]; SDer u_ [("x", 2)]]; s_max_order := 2 |}.
Example forced_ok : pde_system (fun l => l) forced = Ok forced_system.
Proof. vm_compute. reflexivity. Qed.
Definition zrho (e : sx) : Z :=
  if sx_eq_dec e u_ then 5%Z else if sx_eq_dec e F_ then 7%Z else 11%Z.
Definition zdelta (v : list (string * nat)) (a : Z) : Z := if Nat.eqb (count "x" v) 1 then (2 * a)%Z else (4 * a)%Z.
Definition zattr (a : string) : res Z :=
  if String.eqb a "kappa" then Ok 3%Z else if String.eqb a "h" then Ok 11%Z else Err AttributeError.
Example C29_example : translatable forced_system forced /\
  holds (fun l => l) forced_system zrho (fun _ => 3%Z) zdelta (fun v a => Ok (zdelta v a)) zattr (Some [7%Z]) [5%Z] /\
  map (fun q => mean Z (fun q => Qnum q) Z.add Z.mul (fun a _ => a) 0%Z 1%Z zrho (fun _ => 3%Z) zdelta (snd q)) forced
   = [28%Z].
Proof.
  split; [|split].
  - assert (A1 : simple_args [time; x_]) by (intros y Hy; simpl in Hy; intuition (subst; auto)).
    assert (A2 : simple_args [x_]) by (intros y Hy; simpl in Hy; intuition (subst; auto)).
    split.
    + reflexivity.
    + intros f [<-|[]]. do 2 eexists. split; [reflexivity|auto].
    + intros q [<-|[]]. cbn [snd]. unfold u_, F_, h_.
      repeat first [apply Forall_nil | apply Forall_cons | apply flat_add | apply flat_mul
                   | apply flat_num | apply flat_sym; simpl; now auto | apply flat_app; assumption
                   | apply flat_der; [assumption|discriminate|repeat constructor; intros []
                                     |intros [?|[]]; discriminate|intros p [<-|[]]; discriminate]].
    + intros c [<-|[]]. eauto.
    + intros g v w [H|[H|[]]] [H'|[H'|[]]] C; injection H as <- <-; injection H' as <-; auto;
        specialize (C "x"); discriminate.
    + vm_compute. repeat constructor; simpl; intuition discriminate.
    + intros x Hx Hr. vm_compute in Hx. simpl in Hr. intuition (subst; discriminate).
  - split.
    + reflexivity.
    + intros f [<-|[]]. reflexivity.
    + intros f [<-|[]]. reflexivity.
    + reflexivity.
    + reflexivity.
  - reflexivity.
Qed.

(** with fields u and du, the trend of u is written into the state *)
Definition twofields : list equation :=
  [(SDer u_ [("t", 1)], SNum 1); (SDer (SApp "du" [time; x_]) [("t", 1)], SNum 2)].
Theorem C29_state_written_refuted : exists S prog,
  pde_system (fun l => l) twofields = Ok S /\ trend_program (fun l => l) S twofields = Ok prog /\
  forall a b, run_trend Z (fun q => Qnum q) Z.add Z.mul (fun a _ => a) 0%Z 1%Z (fun _ a => Ok a) (fun _ => Ok 0%Z) None prog [a; b]
    = Ok ([0%Z; 2%Z], [a; 1%Z]).
Proof. do 2 eexists. split; [vm_compute; reflexivity|]. split; [vm_compute; reflexivity|]. intros a b. vm_compute. reflexivity. Qed.
Print Assumptions C29_state_written_refuted.

(** C91.  dynamics.advection, dynamics.py 28-33: the advected field and the wind have the
    same name, so that the trend is computed from the wind alone, whatever the state. *)
Definition advection : list equation :=
  [(SDer u_ [("t", 1)], SMul [SNum (-1); SApp "u" [x_]; SDer u_ [("x", 1)]])].
Theorem C91_advection_refuted : exists S prog,
  pde_system (fun l => l) advection = Ok S /\ trend_program (fun l => l) S advection = Ok prog /\
  forall (V : Type) v_num v_add v_mul v_pow (v_zero v_one : V) disc attr exogenous a b,
    run_trend V v_num v_add v_mul v_pow v_zero v_one disc attr exogenous prog [a] =
      (w <- attr "u" ;; d <- disc [("x", 1)] w ;;
       Ok ([v_mul (v_num (-1)%Q) (v_mul w (v_mul d v_one))], [a]))%py /\
    forall r s, run_trend V v_num v_add v_mul v_pow v_zero v_one disc attr exogenous prog [a] = Ok (r, s) ->
      run_trend V v_num v_add v_mul v_pow v_zero v_one disc attr exogenous prog [b] = Ok (r, [b]).
Proof.
  do 2 eexists. split; [vm_compute; reflexivity|]. split; [vm_compute; reflexivity|].
  intros. split.
  - unfold run_trend. cbn. destruct (attr "u"); [|reflexivity]. cbn. destruct (disc _ _); reflexivity.
  - intros r s. unfold run_trend. cbn. destruct (attr "u"); [|discriminate]. cbn. destruct (disc _ _); [|discriminate]. cbn.
    intros H. injection H as <- <-. reflexivity.
Qed.
Print Assumptions C91_advection_refuted.

(** C77 *)
Theorem C77_rejected enum (S : pdes) e1 q e2 :
  (forall q', In q' e1 -> exists r, pseudo_equation enum S q' = Ok r) ->
  ~ prognostic_equation q -> pseudo_system enum S (e1 ++ q :: e2) = Err ValueError.
Proof. exact (pseudo_first enum S e1 q e2). Qed.
Print Assumptions C77_rejected.
Example C77_rejected_example : ~ prognostic_equation (SNum 0, SDer u_ [("x", 2)]).
Proof. intros [(g & v & H) _]. discriminate. Qed.

Theorem C77_accepted enum (S : pdes) eqs ps : pseudo_system enum S eqs = Ok ps ->
  map fst ps = map fst eqs /\ forall q, In q eqs -> prognostic_equation q.
Proof. exact (pseudo_lhs enum S eqs ps). Qed.
Print Assumptions C77_accepted.

Theorem C77_replaced enum (E : forall l, Permutation (enum l) l) eqs (S : pdes) :
  pde_system enum eqs = Ok S -> translatable S eqs ->
  exists ps, pseudo_system enum S eqs = Ok ps /\ map fst ps = map fst eqs /\
    forall q y, In q ps -> In y (subterms (snd q)) -> ~ a_function y /\ forall g v, y <> SDer g v.
Proof.
  intros B T. eexists. split; [apply (pseudo_ok enum E eqs S B T)|]. split.
  - rewrite map_map. reflexivity.
  - intros q y Hq Hy. apply in_map_iff in Hq as (q0 & <- & Hq0). cbn [snd] in Hy.
    destruct (pseudo_no_functions _ _ (t_rhs _ _ T _ Hq0) _ Hy) as [F D]. split; [|intros g v ->; discriminate].
    intros [(f & l & ->)|(e & ->)]; discriminate.
Qed.
Print Assumptions C77_replaced.
Example C77_example : exists ps, pseudo_system (fun l => l) forced_system forced = Ok ps /\
  map snd ps = [SAdd [SMul [SNum (-1); SSym FunSym "u"; SSym FunSym "Du_x_o1"];
                      SMul [SSym ScalSym "kappa"; SSym FunSym "Du_x_o2"]; SSym FunSym "F"; SSym FunSym "h"]].
Proof. eexists. split; [vm_compute; reflexivity|]. vm_compute. reflexivity. Qed.

(** the translation of sin(u) depends on the iteration order of a set, and may keep sin(u) *)
Definition sine : list equation := [(SDer u_ [("t", 1)], SApp "sin" [u_])].
Definition last_first (l : list sx) : list sx := rev l.
Theorem C77_nested_refuted : exists S1 S2,
  pde_system (fun l => l) sine = Ok S1 /\ pde_system last_first sine = Ok S2 /\
  pseudo_system (fun l => l) S1 sine = Ok [(SDer u_ [("t", 1)], SSym FunSym "sin")] /\
  pseudo_system last_first S2 sine = Ok [(SDer u_ [("t", 1)], SApp "sin" [SSym FunSym "u"])].
Proof.
  do 2 eexists. split; [vm_compute; reflexivity|]. split; [vm_compute; reflexivity|].
  split; vm_compute; reflexivity.
Qed.
Print Assumptions C77_nested_refuted.
(** an equation for D_t D_x u is accepted and implemented as the trend of u *)
Theorem C77_mixed_refuted : exists S prog,
  let eqs := [(SDer u_ [("t", 1); ("x", 1)], SNum 1)] in
  pde_system (fun l => l) eqs = Ok S /\ trend_program (fun l => l) S eqs = Ok prog /\
  In (Store (function_trend u_) (SNum 1)) prog.
Proof. do 2 eexists. split; [vm_compute; reflexivity|]. split; [vm_compute; reflexivity|]. simpl. auto. Qed.
Print Assumptions C77_mixed_refuted.

(** C88 *)
Theorem C88_unreadable (V : Type) v_num v_add v_mul v_pow (v_zero v_one : V) disc attr exogenous
    enum (E : forall l, Permutation (enum l) l) eqs (S : pdes) prog bound q :
  pde_system enum eqs = Ok S -> trend_program enum S eqs = Ok prog ->
  (forall x, In x bound <-> In x ["self"; "t"; "state"; "dstate"] \/ In x (flat_map assigned prog)) ->
  In q eqs -> unreadable (s_constants S) bound (snd q) ->
  forall state r, run_trend V v_num v_add v_mul v_pow v_zero v_one disc attr exogenous prog state <> Ok r.
Proof.
  intros B P Hb Hq U state.
  assert (U' : unreadable (s_constants S) (["self"; "t"; "state"; "dstate"] ++ flat_map assigned prog) (snd q)).
  { clear - Hb U. induction U; [apply un_symbol; auto| | | |eapply un_add|eapply un_mul| |]; eauto using unreadable.
    intros H'. apply H0, Hb. apply in_app_or. exact H'. }
  destruct (program_store enum E eqs S B _ prog q P Hq U') as (x & e & Hs & Ue).
  apply (store_fails V v_num v_add v_mul v_pow v_zero v_one disc attr exogenous prog state x e Hs).
  apply unreadable_weaken with (constants := s_constants S). exact Ue.
Qed.
Print Assumptions C88_unreadable.
Theorem C88_names enum (E : forall l, Permutation (enum l) l) (S : pdes) eqs prog :
  trend_program enum S eqs = Ok prog ->
  forall x, In x (flat_map assigned prog) -> x = "exogenous" \/
    (exists f n, In f (s_prognostic S) /\ class_name f n /\ (x = ("d" ++ norm n)%string \/ x = norm n)) \/
    (exists f n, (In f (s_constant S) \/ In f (s_exogenous S)) /\ class_name f n /\ x = norm n) \/
    (exists c n, In c (s_constants S) /\ symbol_name c n /\ x = norm n) \/
    (exists g v n rest, In (SDer g v) (s_derivatives S) /\ class_name g n /\ x = ("D" ++ norm n ++ "_" ++ rest)%string).
Proof.
  intros P x Hx. assert (N : forall f, class_name f (func_name f)).
  { intros f. destruct f; cbn; auto. }
  assert (M : forall c, symbol_name c (match c with SSym _ s => s | _ => "" end)) by (intros c; destruct c; cbn; auto).
  destruct (assigned_names enum E S eqs prog P x Hx) as [H|[(f & I & H)|[(f & I & H)|[(c & I & H)|(d & I & H)]]]].
  - left. exact H.
  - right. left. exists f, (func_name f). split; [exact I|]. split; [apply N|].
    unfold function_trend, function_keyvar, trend_name, keyvar in H. rewrite clean_norm in H. exact H.
  - right. right. left. exists f, (func_name f). split; [exact I|]. split; [apply N|].
    unfold function_keyvar, keyvar in H. rewrite clean_norm in H. exact H.
  - right. right. right. left. exists c, (match c with SSym _ s => s | _ => "" end). split; [exact I|]. split; [apply M|].
    unfold constant_keyvar, keyvar in H. rewrite clean_norm in H. exact H.
  - right. right. right. right. destruct d as [| | | |g v| | | | |]; try discriminate. cbn in H. destruct (partial_orders v) as [p|]; [|discriminate].
    injection H as <-. do 4 eexists. split; [exact I|]. split; [apply N|]. unfold derivative_name, keyvar. rewrite clean_norm. reflexivity.
Qed.
Print Assumptions C88_names.
(** D_t u = a u^(1/2) with a trainable scalar; D_t u = x u *)
Example C88_example : exists S prog,
  let eqs := [(SDer u_ [("t", 1)], SMul [SSym Trainable "a"; SPow u_ (SNum (1 # 2))])] in
  pde_system (fun l => l) eqs = Ok S /\ trend_program (fun l => l) S eqs = Ok prog /\
  unreadable (s_constants S) (["self"; "t"; "state"; "dstate"] ++ flat_map assigned prog) (snd (hd (SNum 0, SNum 0) eqs)).
Proof.
  do 2 eexists. split; [vm_compute; reflexivity|]. split; [vm_compute; reflexivity|].
  eapply un_mul; [simpl; right; left; reflexivity|]. apply un_root. reflexivity.
Qed.
Example C88_example_coordinate : exists S prog,
  let eqs := [(SDer u_ [("t", 1)], SMul [x_; u_])] in
  pde_system (fun l => l) eqs = Ok S /\ trend_program (fun l => l) S eqs = Ok prog /\
  unreadable (s_constants S) (["self"; "t"; "state"; "dstate"] ++ flat_map assigned prog) (snd (hd (SNum 0, SNum 0) eqs)).
Proof.
  do 2 eexists. split; [vm_compute; reflexivity|]. split; [vm_compute; reflexivity|].
  eapply un_mul; [simpl; left; reflexivity|]. apply un_symbol; simpl; intuition discriminate.
Qed.

(** C89 *)
Theorem C89_default_exogenous (V : Type) v_num v_add v_mul v_pow (v_zero v_one : V) disc attr
    enum (E : forall l, Permutation (enum l) l) eqs (S : pdes) prog state :
  s_exogenous S <> [] -> trend_program enum S eqs = Ok prog ->
  forall r, run_trend V v_num v_add v_mul v_pow v_zero v_one disc attr None prog state <> Ok r.
Proof.
  intros N. apply exogenous_fails; auto. intros Z. apply N. apply Permutation_nil. rewrite <- Z. apply E.
Qed.
Print Assumptions C89_default_exogenous.
Example C89_example : s_exogenous forced_system <> [] /\ exists p, trend_program (fun l => l) forced_system forced = Ok p.
Proof. split; [discriminate|]. eexists. vm_compute. reflexivity. Qed.

(** C90 *)
Theorem C90_np (V : Type) v_num v_add v_mul v_pow (v_zero v_one : V) disc attr exogenous
    enum (E : forall l, Permutation (enum l) l) eqs (S : pdes) prog state f :
  trend_program enum S eqs = Ok prog ->
  In f (s_prognostic S) \/ In f (s_constant S) -> function_keyvar f = "np" ->
  run_trend V v_num v_add v_mul v_pow v_zero v_one disc attr exogenous prog state = Err NameError.
Proof.
  intros P Hf N. unfold run_trend. replace (lmem string_dec "np" (flat_map assigned prog)) with true; [reflexivity|].
  symmetry. apply lmem_true. unfold trend_program in P.
  destruct (pseudo_system enum S eqs); [|discriminate]. cbn [bind] in P.
  destruct (mapM (trend_line S) a); [|discriminate]. cbn [bind] in P.
  destruct (mapM diff_stmt _); [|discriminate]. cbn [bind] in P. injection P as <-.
  rewrite !flat_map_app, !in_app_iff. destruct Hf as [Hf|Hf].
  - right; left. apply In_nth_error in Hf as [i Hf]. apply in_flat_map. exists (AliasS "np" i). split; [|simpl; auto].
    apply in_map_iff. exists (i, f). cbn [fst snd]. rewrite N. split; auto. apply in_number. rewrite Nat.sub_0_r. split; [lia|auto].
  - right; right; left. apply in_flat_map. exists (Attr "np" "np"). split; [|simpl; auto].
    apply in_map_iff. exists f. rewrite N. split; auto. eapply Permutation_in; [apply Permutation_sym, E|exact Hf].
Qed.
Print Assumptions C90_np.
Example C90_example : exists S prog,
  let eqs := [(SDer (SApp "np" [time; x_]) [("t", 1)], SNum 1)] in
  pde_system (fun l => l) eqs = Ok S /\ trend_program (fun l => l) S eqs = Ok prog /\
  exists f, In f (s_prognostic S) /\ function_keyvar f = "np".
Proof.
  do 2 eexists. split; [vm_compute; reflexivity|]. split; [vm_compute; reflexivity|].
  eexists. split; [simpl; left; reflexivity|]. reflexivity.
Qed.
