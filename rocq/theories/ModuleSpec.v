(** What the text of a generated module should be.  Python's view of a text: physical lines, comments,
    quotes, brackets, indentation (Language Reference 2.1); then the module expected for a builder. *)
From Coq Require Import List Arith Bool Ascii String.
From Verif Require Import PyBase StrModel JinjaModel.
Import ListNotations.
Open Scope string_scope.
Open Scope list_scope.

(** ** lines of a text *)
Fixpoint lines (s : string) : list string :=
  match s with
  | EmptyString => [""]
  | String c r =>
      if Ascii.eqb c (ascii_of_nat 10) then "" :: lines r
      else match lines r with [] => [String c ""] | l :: ls => String c l :: ls end
  end.

Definition is_quote (c : ascii) : bool := Ascii.eqb c "'" || Ascii.eqb c """".
(** the quote being read after the character [c] *)
Definition quote_after (q : option ascii) (c : ascii) : option ascii :=
  match q with
  | Some d => if Ascii.eqb c d then None else q
  | None => if is_quote c then Some c else None
  end.
(** a line without its comment *)
Fixpoint uncomment (q : option ascii) (s : string) : string :=
  match s with
  | EmptyString => ""
  | String c r =>
      match q with
      | None => if Ascii.eqb c "#" then "" else String c (uncomment (quote_after q c) r)
      | Some _ => String c (uncomment (quote_after q c) r)
      end
  end.
Fixpoint blank (s : string) : bool :=
  match s with EmptyString => true | String c r => Ascii.eqb c " " && blank r end.
(** without trailing spaces *)
Fixpoint trim (s : string) : string :=
  match s with EmptyString => "" | String c r => if blank s then "" else String c (trim r) end.
Definition kept (s : string) : string := trim (uncomment None s).
(** the lines with something to execute *)
Definition statements (text : string) : list string :=
  filter (fun s => negb (String.eqb s "")) (map kept (lines text)).

(** ** indentation *)
Fixpoint indent (s : string) : nat :=
  match s with String c r => if Ascii.eqb c " " then S (indent r) else 0 | EmptyString => 0 end.
Definition opening (c : ascii) : bool := Ascii.eqb c "(" || Ascii.eqb c "[" || Ascii.eqb c "{".
Definition closing (c : ascii) : bool := Ascii.eqb c ")" || Ascii.eqb c "]" || Ascii.eqb c "}".
(** number of open brackets after a line; [None]: one too many is closed *)
Fixpoint nesting (q : option ascii) (n : nat) (s : string) : option nat :=
  match s with
  | EmptyString => Some n
  | String c r =>
      let q' := quote_after q c in
      match q with
      | Some _ => nesting q' n r
      | None => if opening c then nesting q' (S n) r
                else if closing c then match n with O => None | S n => nesting q' n r end
                else nesting q' n r
      end
  end.
Fixpoint last_char (s : string) : option ascii :=
  match s with EmptyString => None | String c EmptyString => Some c | String _ r => last_char r end.
Definition colon (s : string) : bool := match last_char s with Some c => Ascii.eqb c ":" | None => false end.

Fixpoint dedent (n : nat) (stack : list nat) : option (list nat) :=
  match stack with
  | [] => None
  | m :: r => if Nat.eqb m n then Some stack else if Nat.ltb n m then dedent n r else None
  end.
(** open indentations, open brackets, has the last statement announced a block *)
Record reader := { r_stack : list nat; r_depth : nat; r_opened : bool }.
Definition read (st : reader) (line : string) : option reader :=
  match nesting None (r_depth st) line with
  | None => None
  | Some d =>
      let opened := Nat.eqb d 0 && colon line in
      if negb (Nat.eqb (r_depth st) 0)
      then Some {| r_stack := r_stack st; r_depth := d; r_opened := opened |}
      else let n := indent line in
           match r_opened st, r_stack st with
           | true, m :: _ => if Nat.ltb m n
                             then Some {| r_stack := n :: r_stack st; r_depth := d; r_opened := opened |}
                             else None
           | true, [] => None
           | false, stack => match dedent n stack with
                             | Some stack => Some {| r_stack := stack; r_depth := d; r_opened := opened |}
                             | None => None
                             end
           end
  end.
Fixpoint read_all (st : reader) (l : list string) : option reader :=
  match l with [] => Some st | a :: r => match read st a with Some st => read_all st r | None => None end end.
(** every statement is indented as Python wants it, all brackets are closed *)
Definition well_indented (l : list string) : Prop :=
  exists stack, read_all {| r_stack := [0]; r_depth := 0; r_opened := false |} l =
                Some {| r_stack := stack; r_depth := 0; r_opened := false |}.

(** ** what may be inserted in a template *)
(** letters, digits and underscores *)
Fixpoint word (s : string) : bool :=
  match s with EmptyString => true | String c r => word_char c && word r end.
Definition ident (s : string) : Prop := s <> "" /\ word s = true.
(** no line break, no comment, quotes closed *)
Fixpoint unbroken (q : option ascii) (s : string) : bool :=
  match s with
  | EmptyString => match q with None => true | Some _ => false end
  | String c r => negb (Ascii.eqb c (ascii_of_nat 10)) &&
                  match q with None => negb (Ascii.eqb c "#") | Some _ => true end &&
                  unbroken (quote_after q c) r
  end.
(** an expression or a simple statement on one line *)
Record oneline (s : string) : Prop := {
  l_unbroken : unbroken None s = true;
  l_balanced : nesting None 0 s = Some 0;
  l_trimmed : trim s = s;
  l_start : indent s = 0;
  l_text : s <> "";
  l_colon : colon s = false
}.
Record neat (b : builder) : Prop := {
  n_class : ident (b_class b);
  n_prognostic : forall k d, In (k, d) (b_prognostic b) -> ident k /\ ident d;
  n_exogenous : forall k, In k (b_exogenous b) -> ident k;
  n_coordinates : forall k, In k (b_coordinates b) -> ident k;
  n_constants : forall k, In k (b_constants b) -> ident k;
  n_constant_functions : forall k, In k (b_constant_functions b) -> ident k;
  n_derivatives : forall k c, In (k, c) (b_derivatives b) -> ident k /\ oneline c;
  n_trend : forall l, In l (b_trend b) -> oneline l
}.

(** ** the module *)
Fixpoint spaces (n : nat) : string := match n with O => "" | S n => String " " (spaces n) end.
Definition at_ (n : nat) (s : string) : string := (spaces (4 * n) ++ s)%string.

Definition names_tuple (attr : string) (names : list string) : list string :=
  [at_ 1 (attr ++ " = (")] ++ map (fun k => at_ 3 ("'" ++ k ++ "',")) names ++ [at_ 2 ")"].
Definition unless_empty {A} (l : list A) (ls : list string) : list string :=
  match l with [] => [] | _ => ls end.

Definition module_head (b : builder) : list string :=
  ["from sympkf.model import Model"; "import numpy as np"; ("class " ++ b_class b ++ "(Model):")%string] ++
  names_tuple "prognostic_functions" (map fst (b_prognostic b)) ++
  unless_empty (b_exogenous b) (names_tuple "exogenous_functions" (b_exogenous b)) ++
  names_tuple "coordinates" (b_coordinates b) ++
  unless_empty (b_constant_functions b) (names_tuple "constant_functions" (b_constant_functions b)) ++
  unless_empty (b_constants b) (names_tuple "constants" (b_constants b)).

Definition constructor_head_FD : list string :=
  [at_ 1 "def __init__(self, shape=None, lengths=None, **kwargs):";
   at_ 2 "super().__init__(**kwargs)";
   at_ 2 "shape = len(self.coordinates)*(100,) if shape is None else shape";
   at_ 2 "if len(shape)!=len(self.coordinates):";
   at_ 3 "raise ValueError(f""len(shape) {len(shape)} is different from len(coordinates) {len(self.coordinates)}"")";
   at_ 2 "else:";
   at_ 3 "self.shape = shape";
   at_ 2 "lengths = len(self.coordinates)*(1.0,) if lengths is None else lengths";
   at_ 2 "if len(lengths)!=len(self.coordinates):";
   at_ 3 "raise ValueError(f""len(lengths) {len(lengths)} is different from len(coordinates) {len(self.coordinates)}"")";
   at_ 2 "else:";
   at_ 3 "self.lengths = lengths";
   at_ 2 "self._index = {}";
   at_ 2 "for k,coord in enumerate(self.coordinates):";
   at_ 3 "self._index[(coord,0)] = np.arange(self.shape[k], dtype=int)";
   at_ 2 "self.dx = tuple(length/shape for length, shape in zip(self.lengths, self.shape))";
   at_ 2 "self.x = tuple(self.index(coord,0)*dx for coord, dx in zip(self.coordinates, self.dx))";
   at_ 2 "self.X = np.meshgrid(*self.x)"].
Definition constructor_head_Manifold : list string :=
  [at_ 1 "def __init__(self, base_space, **kwargs):";
   at_ 2 "super().__init__()";
   at_ 2 ("assert base_space.dimension == len(self.coordinates)," ++ spaces 49 ++
          """Dimension of base_space is different from the number of coordinates""");
   at_ 2 "self.base_space = base_space"].
(** the declared constants become attributes: nan, then the values given, then a warning *)
Definition set_declared (attr one : string) (names : list string) : list string :=
  map (fun k => at_ 2 ("self." ++ k ++ " = np.nan")) names ++
  [at_ 2 "for key in kwargs:";
   at_ 3 ("if key in self." ++ attr ++ ":");
   at_ 4 "setattr(self, key, kwargs[key])";
   at_ 2 ("for " ++ one ++ " in self." ++ attr ++ ":");
   at_ 3 ("if getattr(self, " ++ one ++ ") is np.nan:");
   at_ 4 ("print(f""Warning: " ++ one ++ " `{" ++ one ++ "}` has to be set"")")].
Definition constructor_tail (b : builder) : list string :=
  unless_empty (b_constant_functions b) (set_declared "constant_functions" "function" (b_constant_functions b)) ++
  unless_empty (b_constants b) (set_declared "constants" "constant" (b_constants b)).
Definition index_method : list string :=
  [at_ 1 "def index(self, coord, step:int):";
   at_ 2 """"""" Return int array of shift index associated with coordinate `coord` for shift `step` """"""";
   at_ 2 "if (coord,step) not in self._index:";
   at_ 3 "self._index[(coord,step)] = (self._index[(coord,0)]+step)%self.shape[self.coordinates.index(coord)]";
   at_ 2 "return self._index[(coord,step)]"].

(** the statements of trend between the creation of dstate and its return *)
Definition trend_statements (b : builder) : list string :=
  map (fun p => (snd (snd p) ++ " = dstate[" ++ str_nat (fst p) ++ "]")%string) (numbered 0 (b_prognostic b)) ++
  map (fun p => (fst (snd p) ++ " = state[" ++ str_nat (fst p) ++ "]")%string) (numbered 0 (b_prognostic b)) ++
  map (fun k => (k ++ " = self." ++ k)%string) (b_constant_functions b) ++
  map (fun k => (k ++ " = self." ++ k)%string) (b_constants b) ++
  unless_empty (b_exogenous b) ("exogenous = self.compute_exogenous(t, state)" ::
    map (fun p => (snd p ++ " = exogenous[" ++ str_nat (fst p) ++ "]")%string) (numbered 0 (b_exogenous b))) ++
  map (fun p => (fst p ++ " = " ++ snd p)%string) (b_derivatives b) ++
  b_trend b.
Definition trend_method (b : builder) : list string :=
  [at_ 1 "def trend(self, t, state):"; at_ 2 """"""" Trend of the dynamics """"""";
   at_ 2 "dstate = np.zeros(state.shape)"] ++
  map (at_ 2) (trend_statements b) ++
  [at_ 2 "return dstate"] ++
  unless_empty (b_exogenous b)
    [at_ 1 "def compute_exogenous(self, t, state):"; at_ 2 """"""" Computation of exogenous functions """""""; at_ 2 "return None"].

Definition module_FD (b : builder) : list string :=
  module_head b ++ constructor_head_FD ++ constructor_tail b ++ index_method ++ trend_method b.
Definition module_Manifold (b : builder) : list string :=
  module_head b ++ constructor_head_Manifold ++ constructor_tail b ++ trend_method b.

(** the small letter of a capital one; any other character is kept *)
Definition small (c : ascii) : ascii :=
  match find (fun p => Ascii.eqb (fst p) c)
             (combine (list_ascii_of_string "ABCDEFGHIJKLMNOPQRSTUVWXYZ") (list_ascii_of_string "abcdefghijklmnopqrstuvwxyz")) with
  | Some p => snd p | None => c
  end.
(** the file of a class *)
Definition file_of (cls : string) : string := (string_of_list_ascii (map small (list_ascii_of_string cls)) ++ ".py")%string.
