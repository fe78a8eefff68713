(** C125: the life of a ModelBuilder object. *)
From Coq Require Import List Arith Bool String.
From Verif Require Import PyBase SymModel PDEModel PDEProps PyBaseFacts StrModel CodegenModel CodegenProps JinjaModel TemplateText BuilderModel
  BuilderObjModel BuilderObjSpec BuilderObjProofs ModuleSpec BuilderProofs ModuleProps.
Import ListNotations.
Open Scope string_scope.
Open Scope list_scope.
Open Scope py_scope.

(** the order in which the properties are read has no effect on the code; the equations are those of the list when the
    pseudo-algebraic system is first made *)
Theorem C125_any_order enum print as_code body (S : pdes) l n h1 h2 : Forall early h1 -> Forall reads h2 ->
  agrees (fst (read_code enum print as_code body (history enum print as_code body (h1 ++ h2) (new_obj S l n))))
         (b <- builder_of enum S (last_list l h1) (last_name n h1) print as_code ;; code body b).
Proof. exact (any_order enum print as_code body S l n h1 h2). Qed.
Print Assumptions C125_any_order.
Theorem C125_from_equations enum print as_code body (S : pdes) eqs o h : pde_system enum eqs = Ok S -> new_from enum eqs None = Ok o -> Forall reads h ->
  agrees (fst (read_code enum print as_code body (history enum print as_code body h o)))
         (b <- builder_of enum S eqs "NumModel" print as_code ;; code body b).
Proof.
  intros E N F. unfold new_from in N. rewrite E in N. injection N as <-. exact (any_order enum print as_code body S eqs "NumModel" [] h (Forall_nil _) F).
Qed.
Print Assumptions C125_from_equations.

(** D_t v = v, and the list [forced] with it *)
Definition v_ : sx := SApp "v" [time; x_].
Definition growth : equation := (SDer v_ [("t", 1)], v_).
Definition growth_system : pdes := match pde_system (fun l => l) [growth] with Ok T => T | Err _ => forced_system end.
Example C125_any_order_example :
  let o := history (fun l => l) show (fun _ => manifold_code) body_Manifold
             ([Read PConstants; Edit [growth]; Rename "A"; Edit forced; Rename "Forced"] ++ [ReadPseudo; Read PFunctions; ReadCode; ReadTrend]) (new_obj forced_system [] "") in
  Forall early [Read PConstants; Edit [growth]; Rename "A"; Edit forced; Rename "Forced"] /\ Forall reads [ReadPseudo; Read PFunctions; ReadCode; ReadTrend] /\
  (exists s, fst (read_code (fun l => l) show (fun _ => manifold_code) body_Manifold o) = Ok s) /\ pde_system (fun l => l) [growth] = Ok growth_system.
Proof. cbv zeta. split; [repeat constructor|]. split; [repeat constructor|]. split; [eexists; vm_compute; reflexivity|vm_compute; reflexivity]. Qed.

(** the code once read never changes *)
Theorem C125_frozen enum print as_code body o s h : fst (read_code enum print as_code body o) = Ok s ->
  fst (read_code enum print as_code body (history enum print as_code body h (snd (read_code enum print as_code body o)))) = Ok s.
Proof. exact (frozen enum print as_code body o s h). Qed.
Print Assumptions C125_frozen.

(** the equations changed after the pseudo-algebraic system has been read are ignored *)
Theorem C125_edit_ignored enum print as_code body (S : pdes) l n h1 h2 ps : Forall early h1 ->
  fst (read_pseudo enum as_code (history enum print as_code body h1 (new_obj S l n))) = Ok ps -> Forall before_code h2 ->
  agrees (fst (read_code enum print as_code body (history enum print as_code body (h1 ++ ReadPseudo :: h2) (new_obj S l n))))
         (b <- builder_of enum S (last_list l h1) (last_name n (h1 ++ h2)) print as_code ;; code body b).
Proof. exact (late_edit enum print as_code body S l n h1 h2 ps). Qed.
Print Assumptions C125_edit_ignored.
Example C125_edit_ignored_example : Forall before_code [Edit []; Rename "Other"; ReadTrend; Edit [growth]] /\
  exists ps s, fst (read_pseudo (fun l => l) (fun _ => manifold_code) (new_obj forced_system forced "Forced")) = Ok ps /\ ps <> [] /\
  fst (read_code (fun l => l) show (fun _ => manifold_code) body_Manifold
        (history (fun l => l) show (fun _ => manifold_code) body_Manifold
           ([] ++ ReadPseudo :: [Edit []; Rename "Other"; ReadTrend; Edit [growth]]) (new_obj forced_system forced "Forced"))) = Ok s.
Proof. split; [repeat constructor|]. do 2 eexists. split; [vm_compute; reflexivity|]. split; [discriminate|vm_compute; reflexivity]. Qed.

(** an equation added to the list for a function the system does not know as prognostic: KeyError, for ever *)
Theorem C125_appended enum print as_code body (S : pdes) l n h1 q f v ps ds : Forall early h1 ->
  In q (last_list l h1) -> fst q = SDer f v -> ~ In f (s_prognostic S) ->
  pseudo_system enum S (last_list l h1) = Ok ps -> mapM (meta_of_derivative as_code) (enum (s_derivatives S)) = Ok ds ->
  let o := history enum print as_code body h1 (new_obj S l n) in
  fst (read_code enum print as_code body o) = Err KeyError /\
  forall h, fst (read_code enum print as_code body (history enum print as_code body h (snd (read_code enum print as_code body o)))) = Err KeyError.
Proof. exact (appended enum print as_code body S l n h1 q f v ps ds). Qed.
Print Assumptions C125_appended.
Example C125_appended_example : Forall early [Edit (forced ++ [growth])] /\ In growth (last_list forced [Edit (forced ++ [growth])]) /\
  fst growth = SDer v_ [("t", 1)] /\ ~ In v_ (s_prognostic forced_system) /\
  (exists ps, pseudo_system (fun l => l) forced_system (forced ++ [growth]) = Ok ps) /\
  (exists ds, mapM (meta_of_derivative (fun _ => manifold_code)) (s_derivatives forced_system) = Ok ds).
Proof.
  split; [repeat constructor|]. split; [right; left; reflexivity|]. split; [reflexivity|]. split; [intros [X|[]]; discriminate|].
  split; eexists; vm_compute; reflexivity.
Qed.

(** the claim that a builder whose equations have been corrected gives the code: false after this failure *)
Theorem C125_repair_refuted : exists (S : pdes) (l bad : list equation), pde_system (fun l => l) l = Ok S /\
  let new := new_obj S l "Forced" in
  let read := read_code (fun l => l) show (fun _ => manifold_code) body_Manifold in
  let run := history (fun l => l) show (fun _ => manifold_code) body_Manifold in
  (exists s, fst (read new) = Ok s) /\ fst (read (run [Edit bad; ReadCode; Edit l] new)) = Err KeyError.
Proof.
  exists forced_system, forced, (forced ++ [growth]). split; [exact forced_ok|]. cbv zeta. split; [eexists; vm_compute; reflexivity|].
  vm_compute. reflexivity.
Qed.
Print Assumptions C125_repair_refuted.
(** it holds when the failure comes before the pseudo-algebraic system is kept *)
Theorem C125_retried enum print as_code body (S : pdes) l n h1 h2 h3 l' e : Forall early h1 -> Forall reads h2 -> Forall reads h3 ->
  pseudo_system enum S (last_list l h1) = Err e ->
  (exists e', fst (read_code enum print as_code body (history enum print as_code body (h1 ++ h2) (new_obj S l n))) = Err e') /\
  agrees (fst (read_code enum print as_code body (history enum print as_code body (h1 ++ h2 ++ Edit l' :: h3) (new_obj S l n))))
         (b <- builder_of enum S l' (last_name n h1) print as_code ;; code body b).
Proof. exact (retried enum print as_code body S l n h1 h2 h3 l' e). Qed.
Print Assumptions C125_retried.
(** u = u is refused; the list is corrected after two failures *)
Example C125_retried_example : pseudo_system (fun l => l) forced_system (last_list forced [Edit [(u_, u_)]]) = Err ValueError /\
  exists s, fst (read_code (fun l => l) show (fun _ => manifold_code) body_Manifold
    (history (fun l => l) show (fun _ => manifold_code) body_Manifold ([Edit [(u_, u_)]] ++ [ReadCode; ReadTrend] ++ Edit forced :: [Read PFunctions]) (new_obj forced_system forced "Forced"))) = Ok s.
Proof. split; [vm_compute; reflexivity|]. eexists. vm_compute. reflexivity. Qed.

(** the file written after the code has been read: the present name, the code first read *)
Theorem C125_written enum print as_code body (S : pdes) l n h1 h2 s files :
  fst (read_code enum print as_code body (history enum print as_code body h1 (new_obj S l n))) = Ok s ->
  fst (write_obj enum print as_code body (history enum print as_code body h2 (snd (read_code enum print as_code body (history enum print as_code body h1 (new_obj S l n))))) files) =
    Ok (dset string_dec (ModuleSpec.file_of (last_name n (h1 ++ h2))) (licence ++ s)%string files).
Proof. rewrite <- BuilderProofs.lower_file. exact (renamed enum print as_code body S l n h1 h2 s files). Qed.
Print Assumptions C125_written.
(** the claim that a renamed builder writes what a builder made with the new name writes: false after the code has been read *)
Theorem C125_rename_refuted : exists (S : pdes) (l : list equation) (s : string), pde_system (fun l => l) l = Ok S /\
  let read := read_code (fun l => l) show (fun _ => manifold_code) body_Manifold in
  let run := history (fun l => l) show (fun _ => manifold_code) body_Manifold in
  let write := write_obj (fun l => l) show (fun _ => manifold_code) body_Manifold in
  fst (read (new_obj S l "Old")) = Ok s /\ In "class Old(Model):" (ModuleSpec.statements s) /\
  fst (write (run [ReadCode; Rename "New"] (new_obj S l "Old")) []) = Ok [("new.py", (licence ++ s)%string)] /\
  fst (write (run [Rename "New"] (new_obj S l "Old")) []) <> Ok [("new.py", (licence ++ s)%string)].
Proof.
  exists forced_system, forced. eexists. split; [exact forced_ok|]. cbv zeta. split; [vm_compute; reflexivity|].
  split; [apply (lmem_true string_dec); vm_compute; reflexivity|]. split; [vm_compute; reflexivity|]. vm_compute. discriminate.
Qed.
Print Assumptions C125_rename_refuted.

(** a system assigned to pde_system: the properties read before keep the old system, the others and the equations come
    from the new one *)
Theorem C125_assign enum print as_code body (S T V : pdes) l l' n h1 h2 h3 : Forall early h1 -> Forall early h2 -> Forall reads h3 ->
  mixture S T h1 V -> (In ReadDerivatives h1 -> fst (read_derivatives enum as_code (new_obj S l n)) = Ok tt) ->
  agrees (fst (read_code enum print as_code body (history enum print as_code body (h1 ++ Assign T l' :: h2 ++ h3) (new_obj S l n))))
         (b <- builder_of enum V (last_list l' h2) (last_name n (h1 ++ h2)) print as_code ;; code body b).
Proof. exact (assigned enum print as_code body S T V l l' n h1 h2 h3). Qed.
Print Assumptions C125_assign.
(** the exogenous functions and the constants of the old system stay, the rest is D_t v = v *)
Example C125_assign_example : exists V, mixture forced_system growth_system [Read PExogenous; Edit []; Read PConstants; ReadDerivatives] V /\
  s_prognostic V = [v_] /\ s_exogenous V = s_exogenous forced_system /\ s_exogenous V <> s_exogenous growth_system /\
  fst (read_derivatives (fun l => l) (fun _ => manifold_code) (new_obj forced_system forced "A")) = Ok tt /\
  exists s, fst (read_code (fun l => l) show (fun _ => manifold_code) body_Manifold
    (history (fun l => l) show (fun _ => manifold_code) body_Manifold
       ([Read PExogenous; Edit []; Read PConstants; ReadDerivatives] ++ Assign growth_system [growth] :: [Rename "B"] ++ [ReadTrend]) (new_obj forced_system forced "A"))) = Ok s.
Proof.
  exists {| s_functions := s_functions growth_system; s_prognostic := s_prognostic growth_system; s_constant := s_constant growth_system;
     s_exogenous := s_exogenous forced_system; s_coordinates := s_coordinates growth_system; s_spatial := s_spatial growth_system;
     s_trainable := s_trainable growth_system; s_constants := s_constants forced_system; s_derivatives := s_derivatives forced_system;
     s_max_order := s_max_order growth_system |}.
  split; [constructor; cbn -[forced_system growth_system]; try reflexivity; split; intros X; try reflexivity; exfalso; firstorder discriminate|].
  split; [vm_compute; reflexivity|]. split; [reflexivity|]. split; [vm_compute; discriminate|]. split; [vm_compute; reflexivity|]. eexists. vm_compute. reflexivity.
Qed.
(** the claim that assigning pde_system makes the builder that of the new system: false after a property has been read *)
Theorem C125_assign_refuted : exists (S S' : pdes) (l l' : list equation), pde_system (fun l => l) l = Ok S /\ pde_system (fun l => l) l' = Ok S' /\
  let read := read_code (fun l => l) show (fun _ => manifold_code) body_Manifold in
  let run := history (fun l => l) show (fun _ => manifold_code) body_Manifold in
  (exists s, fst (read (new_obj S' l' "A")) = Ok s /\ fst (read (run [Assign S' l'] (new_obj S l "A"))) = Ok s) /\
  fst (read (run [Read PPrognostic; Assign S' l'] (new_obj S l "A"))) = Err KeyError.
Proof.
  exists forced_system, growth_system, forced, [growth]. split; [exact forced_ok|]. split; [vm_compute; reflexivity|]. cbv zeta.
  split; [eexists; split; vm_compute; reflexivity|vm_compute; reflexivity].
Qed.
Print Assumptions C125_assign_refuted.
