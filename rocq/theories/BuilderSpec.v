(** The text of the statements of trend; which assignments Python refuses. *)
From Coq Require Import List Arith Bool Ascii String.
From Verif Require Import PyBase SymModel PDEModel CodegenModel StrModel JinjaModel ModuleSpec.
Import ListNotations.
Open Scope string_scope.
Open Scope list_scope.

Section Text.
  Variable print : sx -> string.                                    (* str of an expression *)
  Variable code_of : string -> list (string * nat) -> string.       (* code of a derivative *)
  Definition stmt_text (s : stmt) : string :=
    match s with
    | AliasD x i => (x ++ " = dstate[" ++ str_nat i ++ "]")%string
    | AliasS x i => (x ++ " = state[" ++ str_nat i ++ "]")%string
    | Attr x a => (x ++ " = self." ++ a)%string
    | CallExogenous => "exogenous = self.compute_exogenous(t, state)"
    | ExogenousItem x i => (x ++ " = exogenous[" ++ str_nat i ++ "]")%string
    | Diff x f p => (x ++ " = " ++ code_of f p)%string
    | Store x e => (x ++ "[:] = " ++ print e)%string
    end.
End Text.

(** Python 3 keywords (Language Reference 2.3.1) *)
Definition keywords : list string :=
  ["False"; "None"; "True"; "and"; "as"; "assert"; "async"; "await"; "break"; "class"; "continue"; "def"; "del";
   "elif"; "else"; "except"; "finally"; "for"; "from"; "global"; "if"; "import"; "in"; "is"; "lambda"; "nonlocal";
   "not"; "or"; "pass"; "raise"; "return"; "try"; "while"; "with"; "yield"].
(** an assignment to a keyword: a SyntaxError wherever it stands *)
Definition refused (line : string) : Prop :=
  exists n k rest, In k keywords /\ line = (spaces n ++ k ++ " = " ++ rest)%string.

(** the names a builder hands to the templates *)
Definition given_names (b : builder) : list string :=
  map fst (b_prognostic b) ++ map snd (b_prognostic b) ++ b_exogenous b ++ b_constants b ++
  b_constant_functions b ++ map fst (b_derivatives b).
(** the lines of the trend store in an array *)
Definition stores (l : string) : Prop := exists x e, ident x /\ l = (x ++ "[:] = " ++ e)%string.

(** a system whose names are identifiers once cleaned *)
Record readable (S : pdes) (class_name : string) : Prop := {
  r_class : ident class_name;
  r_prognostic : forall f, In f (s_prognostic S) -> ident (function_keyvar f);
  r_exogenous : forall f, In f (s_exogenous S) -> ident (function_keyvar f);
  r_constant : forall f, In f (s_constant S) -> ident (function_keyvar f);
  r_constants : forall c, In c (s_constants S) -> ident (constant_keyvar c);
  r_spatial : forall c, In c (s_spatial S) -> ident (constant_keyvar c);
  r_derivatives : forall g v c n, In (SDer g v) (s_derivatives S) -> In (c, n) v ->
                  ident (function_keyvar g) /\ ident c
}.

(** where the statements of trend stand *)
Definition trend_in (module : list string) (stmts : list string) : Prop :=
  exists before after', module = before ++ [at_ 1 "def trend(self, t, state):"; at_ 2 """"""" Trend of the dynamics """""""; at_ 2 "dstate = np.zeros(state.shape)"] ++
    map (at_ 2) stmts ++ at_ 2 "return dstate" :: after'.
