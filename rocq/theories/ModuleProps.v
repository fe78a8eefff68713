(** Properties of the text of the generated modules: C102, C103. *)
From Coq Require Import List Arith Bool Ascii String Permutation QArith.
From Verif Require Import PyBase PyBaseFacts SymModel PDEModel PDEProps CodegenModel CodegenProps StrModel TemplateText JinjaModel BuilderModel
  ModuleSpec BuilderSpec ModuleProofs ModuleMain ModuleText ModuleIndent BuilderProofs BuilderMain
  SchemesModel GenInitModel GenInitSpec GenInitProofs.
Import ListNotations.
Close Scope Q_scope.
Open Scope nat_scope.
Open Scope string_scope.
Open Scope list_scope.

(** C102: rendering never fails, and what is to be executed is the expected module *)
Theorem C102_statements (b : builder) : neat b ->
  (exists s, code body_FD b = Ok s /\ statements s = module_FD b) /\
  (exists s, code body_Manifold b = Ok s /\ statements s = module_Manifold b).
Proof. intros N. split; [exact (text_FD b N)|exact (text_Manifold b N)]. Qed.
Print Assumptions C102_statements.

Theorem C102_indentation (b : builder) : neat b ->
  (exists s, code body_FD b = Ok s /\ well_indented (statements s)) /\
  (exists s, code body_Manifold b = Ok s /\ well_indented (statements s)).
Proof.
  intros N. split.
  - destruct (text_FD b N) as (s & C & E). exists s. split; [exact C|]. rewrite E. exact (indent_FD b N).
  - destruct (text_Manifold b N) as (s & C & E). exists s. split; [exact C|]. rewrite E. exact (indent_Manifold b N).
Qed.
Print Assumptions C102_indentation.

(** two prognostic functions, one constant, one constant function, one exogenous function *)
Definition sample : builder :=
  {| b_class := "Forced"; b_prognostic := [("u", "du"); ("V_u", "dV_u")]; b_exogenous := ["F"]; b_coordinates := ["x"; "y"];
     b_constants := ["kappa"]; b_constant_functions := ["h"];
     b_derivatives := [("Du_x_o1_y_o2", "self.base_space.diff(u,'x',1,'y',2)")];
     b_trend := ["du[:] = -u*Du_x_o1_y_o2 + kappa*F"; "dV_u[:] = h"] |}.
Example sample_neat : neat sample.
Proof.
  split; cbn; intros; repeat match goal with H : _ \/ _ |- _ => destruct H as [H|H] end; try contradiction;
    repeat match goal with H : (_, _) = (_, _) |- _ => inversion H; subst; clear H | H : @eq string _ _ |- _ => subst end;
    repeat split; try discriminate; reflexivity.
Qed.
Example sample_text : exists s, code body_Manifold sample = Ok s /\ statements s =
  ["from sympkf.model import Model"; "import numpy as np"; "class Forced(Model):";
   "    prognostic_functions = ("; "            'u',"; "            'V_u',"; "        )";
   "    exogenous_functions = ("; "            'F',"; "        )";
   "    coordinates = ("; "            'x',"; "            'y',"; "        )";
   "    constant_functions = ("; "            'h',"; "        )";
   "    constants = ("; "            'kappa',"; "        )";
   "    def __init__(self, base_space, **kwargs):"; "        super().__init__()";
   "        assert base_space.dimension == len(self.coordinates),                                                 ""Dimension of base_space is different from the number of coordinates""";
   "        self.base_space = base_space";
   "        self.h = np.nan"; "        for key in kwargs:"; "            if key in self.constant_functions:";
   "                setattr(self, key, kwargs[key])"; "        for function in self.constant_functions:";
   "            if getattr(self, function) is np.nan:"; "                print(f""Warning: function `{function}` has to be set"")";
   "        self.kappa = np.nan"; "        for key in kwargs:"; "            if key in self.constants:";
   "                setattr(self, key, kwargs[key])"; "        for constant in self.constants:";
   "            if getattr(self, constant) is np.nan:"; "                print(f""Warning: constant `{constant}` has to be set"")";
   "    def trend(self, t, state):"; "        """""" Trend of the dynamics """""""; "        dstate = np.zeros(state.shape)";
   "        du = dstate[0]"; "        dV_u = dstate[1]"; "        u = state[0]"; "        V_u = state[1]";
   "        h = self.h"; "        kappa = self.kappa";
   "        exogenous = self.compute_exogenous(t, state)"; "        F = exogenous[0]";
   "        Du_x_o1_y_o2 = self.base_space.diff(u,'x',1,'y',2)";
   "        du[:] = -u*Du_x_o1_y_o2 + kappa*F"; "        dV_u[:] = h"; "        return dstate";
   "    def compute_exogenous(self, t, state):"; "        """""" Computation of exogenous functions """""""; "        return None"].
Proof. eexists. split; [vm_compute; reflexivity|vm_compute; reflexivity]. Qed.

(** the method trend of the text is the program that C29 runs *)
Theorem C102_trend_program enum (E : forall l, Permutation (enum l) l) (S : pdes) eqs class_name
    (print : sx -> string) (code_of : string -> list (string * nat) -> string) b :
  readable S class_name ->
  (forall ps q, pseudo_system enum S eqs = Ok ps -> In q ps -> oneline (print (snd q))) ->
  (forall g v p, In (SDer g v) (s_derivatives S) -> partial_orders v = Ok p -> oneline (code_of (function_keyvar g) p)) ->
  builder_of enum S eqs class_name print (fun _ => code_of) = Ok b ->
  exists prog, trend_program enum S eqs = Ok prog /\
  (exists s, code body_FD b = Ok s /\ well_indented (statements s) /\ trend_in (statements s) (map (stmt_text print code_of) prog)) /\
  (exists s, code body_Manifold b = Ok s /\ well_indented (statements s) /\ trend_in (statements s) (map (stmt_text print code_of) prog)).
Proof.
  intros R P C B. destruct (trend_program_text enum S eqs class_name print code_of b B) as (prog & T & Eq).
  pose proof (neat_builder enum E S eqs class_name print (fun _ => code_of) R P (fun g v p => C g v p) b B) as N.
  exists prog. split; [exact T|]. rewrite <- Eq. split.
  - destruct (text_FD b N) as (s & Hs & Es). exists s. rewrite Es. split; [exact Hs|]. split; [exact (indent_FD b N)|apply trend_in_FD].
  - destruct (text_Manifold b N) as (s & Hs & Es). exists s. rewrite Es. split; [exact Hs|]. split; [exact (indent_Manifold b N)|apply trend_in_Manifold].
Qed.
Print Assumptions C102_trend_program.

(** on a manifold, the code of a derivative is such a text *)
Theorem C102_manifold_code f p : ident f -> (forall c n, In (c, n) p -> ident c) ->
  oneline (manifold_code f p) /\
  manifold_code f p = ("self.base_space.diff(" ++ f ++ "," ++ join "," (map (fun co => "'" ++ fst co ++ "'," ++ str_nat (snd co))%string p) ++ ")")%string.
Proof. intros F P. split; [exact (manifold_oneline f p F P)|reflexivity]. Qed.
Print Assumptions C102_manifold_code.

(** the system [forced] of CodegenProps: D_t u = - u D_x u + kappa D_x^2 u + F + h, with a printer *)
Fixpoint show (e : sx) : string :=
  match e with
  | SNum _ => "-1"
  | SSym _ s => s
  | SAdd l => ("(" ++ join " + " (map show l) ++ ")")%string
  | SMul l => ("(" ++ join "*" (map show l) ++ ")")%string
  | _ => "?"
  end.
Example forced_readable : readable forced_system "Forced".
Proof.
  split; cbn; intros; repeat match goal with H : _ \/ _ |- _ => destruct H as [H|H] end; try contradiction;
    repeat match goal with H : SDer _ _ = SDer _ _ |- _ => inversion H; subst; clear H | H : @eq sx _ _ |- _ => subst end;
    try (cbn in *; match goal with H : _ \/ False |- _ => destruct H as [H|[]]; inversion H; subst end);
    repeat split; try discriminate; reflexivity.
Qed.
Example forced_text : exists b s, builder_of (fun l => l) forced_system forced "Forced" show (fun _ => manifold_code) = Ok b /\
  (forall ps q, pseudo_system (fun l => l) forced_system forced = Ok ps -> In q ps -> oneline (show (snd q))) /\
  code body_Manifold b = Ok s /\ In "        du[:] = ((-1*u*Du_x_o1) + (kappa*Du_x_o2) + F + h)" (statements s).
Proof.
  eexists. eexists. split; [vm_compute; reflexivity|]. split; [|split; [vm_compute; reflexivity|]].
  - intros ps q Ps. vm_compute in Ps. inversion Ps; subst. intros [<-|[]]. split; try reflexivity; discriminate.
  - apply (lmem_true string_dec). vm_compute. reflexivity.
Qed.

(** names that are Python keywords *)
Theorem C102_no_keyword (b : builder) : neat b ->
  (forall k, In k (given_names b) -> ~ In k keywords) -> (forall l, In l (b_trend b) -> stores l) ->
  (exists s, code body_FD b = Ok s /\ forall line, In line (statements s) -> ~ refused line) /\
  (exists s, code body_Manifold b = Ok s /\ forall line, In line (statements s) -> ~ refused line).
Proof.
  intros N K St. split.
  - destruct (text_FD b N) as (s & C & E). exists s. split; [exact C|]. rewrite E. exact (fine_FD b N K St).
  - destruct (text_Manifold b N) as (s & C & E). exists s. split; [exact C|]. rewrite E. exact (fine_Manifold b N K St).
Qed.
Print Assumptions C102_no_keyword.
Example C102_no_keyword_example : (forall k, In k (given_names sample) -> ~ In k keywords) /\ (forall l, In l (b_trend sample) -> stores l).
Proof.
  split.
  - intros k H. cbn in H. repeat (destruct H as [<-|H]; [intros X; apply (lmem_true string_dec) in X; vm_compute in X; discriminate|]). contradiction.
  - intros l [<-|[<-|[]]]; [exists "du", "-u*Du_x_o1_y_o2 + kappa*F"|exists "dV_u", "h"]; repeat split; discriminate.
Qed.

(** every keyword among the names makes the module unreadable *)
Theorem C102_keyword_breaks (b : builder) k : neat b -> In k (given_names b) -> In k keywords ->
  (exists s line, code body_FD b = Ok s /\ In line (statements s) /\ refused line) /\
  (exists s line, code body_Manifold b = Ok s /\ In line (statements s) /\ refused line).
Proof.
  intros N G K. destruct (keyword_breaks b k G K) as (line & I & R). split.
  - destruct (text_FD b N) as (s & C & E). exists s, line. rewrite E. unfold module_FD. rewrite !in_app_iff. auto 10.
  - destruct (text_Manifold b N) as (s & C & E). exists s, line. rewrite E. unfold module_Manifold. rewrite !in_app_iff. auto 10.
Qed.
Print Assumptions C102_keyword_breaks.

(** the claim that the generated module can be read by Python for every system: false for
    D_t u = lambda D_x u, the constant being Symbol('lambda') or Symbol('\\lambda') *)
Definition decay (name : string) : list equation :=
  [(SDer u_ [("t", 1)], SMul [SSym Plain name; SDer u_ [("x", 1)]])].
Theorem C102_keyword_refuted name : name = "lambda" \/ name = (backslash ++ "lambda")%string ->
  exists S b s line, pde_system (fun l => l) (decay name) = Ok S /\ readable S "Decay" /\
    builder_of (fun l => l) S (decay name) "Decay" show (fun _ => manifold_code) = Ok b /\
    code body_Manifold b = Ok s /\ In line (statements s) /\ line = "        lambda = self.lambda" /\ refused line.
Proof.
  intros [->| ->]; (do 3 eexists; exists "        lambda = self.lambda"; split; [vm_compute; reflexivity|]; split;
    [split; cbn; intros; repeat match goal with H : _ \/ _ |- _ => destruct H as [H|H] end; try contradiction;
     repeat match goal with H : SDer _ _ = SDer _ _ |- _ => inversion H; subst; clear H | H : @eq sx _ _ |- _ => subst end;
     try (cbn in *; match goal with H : _ \/ False |- _ => destruct H as [H|[]]; inversion H; subst end);
     repeat split; try discriminate; reflexivity|];
    split; [vm_compute; reflexivity|]; split; [vm_compute; reflexivity|]; split;
    [apply (lmem_true string_dec); vm_compute; reflexivity|]; split; [reflexivity|];
    exists 8, "lambda", "self.lambda"; split; [cbn; tauto|reflexivity]).
Qed.
Print Assumptions C102_keyword_refuted.

(** write_module *)
Theorem C102_file body (b : builder) files s : code body b = Ok s ->
  exists files', write_module body b files = Ok files' /\
    (exists t, dget string_dec (file_of (b_class b)) files' = Some t /\ statements t = statements s) /\
    forall f, f <> file_of (b_class b) -> dget string_dec f files' = dget string_dec f files.
Proof.
  intros C. destruct (write_ok body b files s C) as (fs & W & G & O). exists fs. unfold module_file in G, O. rewrite lower_file in G, O.
  split; [exact W|]. split; [|exact O]. exists (licence ++ s)%string. split; [exact G|apply licence_comments].
Qed.
Print Assumptions C102_file.
Example C102_file_example : exists s, code body_FD sample = Ok s /\ file_of (b_class sample) = "forced.py".
Proof. eexists. split; [vm_compute; reflexivity|reflexivity]. Qed.

(** distinct classes do not keep distinct modules *)
Theorem C102_overwritten_refuted : exists b1 b2 files1 files2 t,
  neat b1 /\ neat b2 /\ b_class b1 <> b_class b2 /\
  write_module body_FD b1 [] = Ok files1 /\ write_module body_FD b2 files1 = Ok files2 /\
  dkeys files2 = [file_of (b_class b1)] /\ dget string_dec (file_of (b_class b1)) files2 = Some t /\
  ~ In ("class " ++ b_class b1 ++ "(Model):")%string (statements t).
Proof.
  pose (mk := fun c => {| b_class := c; b_prognostic := [("u", "du")]; b_exogenous := []; b_coordinates := ["x"]; b_constants := [];
     b_constant_functions := []; b_derivatives := []; b_trend := ["du[:] = u"] |}).
  exists (mk "Advection"), (mk "ADVECTION"). do 3 eexists.
  assert (N : forall c, ident c -> neat (mk c)).
  { intros c C. split; try exact C; cbn; intros; repeat match goal with H : _ \/ _ |- _ => destruct H as [H|H] end; try contradiction;
    repeat match goal with H : (_, _) = (_, _) |- _ => inversion H; subst; clear H | H : @eq string _ _ |- _ => subst end;
    repeat split; try discriminate; reflexivity. }
  split; [apply N; split; [discriminate|reflexivity]|]. split; [apply N; split; [discriminate|reflexivity]|]. split; [discriminate|].
  split; [vm_compute; reflexivity|]. split; [vm_compute; reflexivity|]. split; [vm_compute; reflexivity|]. split; [vm_compute; reflexivity|].
  intros H. apply (lmem_true string_dec) in H. vm_compute in H. discriminate.
Qed.
Print Assumptions C102_overwritten_refuted.

(** C103 *)
Theorem C103_manifold_constructor (V : Type) (is_nan : V -> bool) coords cf cs dim (kw : kwargs V) :
  NoDup (map fst kw) ->
  (dim <> List.length coords -> init_Manifold V is_nan coords cf cs dim kw = Err AssertionError) /\
  (dim = List.length coords -> exists i, init_Manifold V is_nan coords cf cs dim kw = Ok i /\
     (forall n, In n (cf ++ cs) -> exists v, dget string_dec n (i_attrs V i) = Some v /\ constant_value kw n v /\
        (In n (i_warned V i) <-> nan_attr V is_nan (Some v) = true)) /\
     (forall n, ~ In n (cf ++ cs) -> n <> "base_space" -> dget string_dec n (i_attrs V i) = None /\ ~ In n (i_warned V i)) /\
     (~ In "base_space" (cf ++ cs) -> dget string_dec "base_space" (i_attrs V i) = Some BaseSpace)).
Proof.
  intros ND. split.
  - intros D. unfold init_Manifold, scheme_Manifold, base_init. cbn. apply Nat.eqb_neq in D. rewrite D. reflexivity.
  - intros D. destruct (init_Manifold V is_nan coords cf cs dim kw) as [i|e] eqn:I.
    2:{ unfold init_Manifold, scheme_Manifold, base_init in I. cbn in I. apply Nat.eqb_eq in D. rewrite D in I. discriminate. }
    destruct (init_all V is_nan coords cf cs dim kw i ND I) as (_ & A & W). exists i. split; [reflexivity|]. split; [|split].
    + intros n Hn. exists (value_in V kw n). rewrite A. pose proof Hn as Hl. apply (lmem_true string_dec) in Hl. rewrite Hl. split; [reflexivity|].
      split; [exact (value_in_spec V kw n ND)|]. rewrite W, filter_In. tauto.
    + intros n Hn Nb. rewrite A. pose proof Hn as Hl. apply (lmem_false string_dec) in Hl. rewrite Hl. split.
      * destruct (string_dec n "base_space"); [contradiction|reflexivity].
      * rewrite W, filter_In. tauto.
    + intros Hn. rewrite A. apply (lmem_false string_dec) in Hn. rewrite Hn. reflexivity.
Qed.
Print Assumptions C103_manifold_constructor.
Example C103_example : exists i,
  init_Manifold bool (fun b => b) ["x"] ["h"] ["kappa"; "c"] 1 [("kappa", Val false); ("other", Str "z"); ("c", Val true)] = Ok i /\
  dget string_dec "kappa" (i_attrs bool i) = Some (Given (Val false)) /\ dget string_dec "h" (i_attrs bool i) = Some NaN /\
  dget string_dec "other" (i_attrs bool i) = None /\ i_warned bool i = ["h"; "c"].
Proof. eexists. vm_compute. repeat split; reflexivity. Qed.

(** the time scheme: FDModelBuilder hands the keyword to Model.__init__ *)
Theorem C103_scheme_FD (V : Type) (kw : kwargs V) : NoDup (map fst kw) ->
  ((forall a, ~ given kw "time_scheme" a) -> scheme_FD V kw = Ok Rk4) /\
  (forall s, given kw "time_scheme" (Str s) -> scheme_FD V kw = model_init s).
Proof.
  intros ND. unfold scheme_FD, base_init, given. split.
  - intros N. destruct (dget string_dec "time_scheme" kw) eqn:D; [|reflexivity]. apply dget_Some_In in D. destruct (N _ D).
  - intros s H. assert (D : dget string_dec "time_scheme" kw = Some (Str s)); [|rewrite D; reflexivity].
    clear - ND H. induction kw as [|[k a] kw IH]; [contradiction|]. inversion ND as [|? ? Hk ND']; subst. cbn [dget].
    destruct (string_dec "time_scheme" k) as [<-|D].
    + destruct H as [H|H]; [congruence|]. exfalso. apply Hk. apply in_map_iff. exists ("time_scheme", Str s). auto.
    + destruct H as [H|H]; [congruence|]. exact (IH ND' H).
Qed.
Print Assumptions C103_scheme_FD.
Example C103_scheme_FD_example : scheme_FD nat [("time_scheme", Str "euler"); ("kappa", Val 3)] = Ok Euler.
Proof. reflexivity. Qed.

(** the claim that the keyword time_scheme selects the scheme of a generated class, as for Model: false
    for ManifoldModelBuilder, whose constructor always selects rk4 and accepts any name *)
Theorem C103_scheme_ignored (V : Type) (is_nan : V -> bool) coords cf cs dim (kw : kwargs V) i :
  NoDup (map fst kw) -> init_Manifold V is_nan coords cf cs dim kw = Ok i -> i_scheme V i = Rk4.
Proof. intros ND I. apply (init_all V is_nan coords cf cs dim kw i ND I). Qed.
Print Assumptions C103_scheme_ignored.

Theorem C103_scheme_refuted : exists (kw : kwargs nat) i j,
  NoDup (map fst kw) /\ given kw "time_scheme" (Str "euler") /\ model_init "euler" = Ok Euler /\
  init_Manifold nat (fun _ => false) ["x"] [] [] 1 kw = Ok i /\ i_scheme nat i <> Euler /\
  model_init "nonsense" = Err ValueError /\
  init_Manifold nat (fun _ => false) ["x"] [] [] 1 [("time_scheme", Str "nonsense")] = Ok j.
Proof.
  exists [("time_scheme", Str "euler")]. do 2 eexists. split; [repeat constructor; intros []|]. split; [left; reflexivity|].
  split; [reflexivity|]. split; [reflexivity|]. split; [discriminate|]. split; reflexivity.
Qed.
Print Assumptions C103_scheme_refuted.
