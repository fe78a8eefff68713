(** The text of the generated modules: /repo/src/sympkf/symbolic/model_builder.py 282-334
    (templates, _render, write_module), the templates of TemplateText.v, and the part of jinja2
    (jinja2.Template(text).render(..), default settings) these templates use: data, output of a name
    or of an attribute, for, if without else, the whitespace control [-].  Not modelled, [None]:
    any other syntax.  An exception of jinja2 (UndefinedError) is an AttributeError here. *)
From Coq Require Import List Arith Bool Ascii String.
From Verif Require Import PyBase StrModel TemplateText.
Import ListNotations.
Open Scope string_scope.
Open Scope list_scope.
Open Scope py_scope.

(** ** characters *)
(** what [\s] and [str.strip] remove *)
Definition is_space (c : ascii) : bool :=
  let n := nat_of_ascii c in Nat.eqb n 32 || (Nat.leb 9 n && Nat.leb n 13).
(** jinja2: a character of a name, for the templates rendered by model_builder.py 301-317 *)
Definition word_char (c : ascii) : bool :=
  let n := nat_of_ascii c in
  (Nat.leb 48 n && Nat.leb n 57) || (Nat.leb 65 n && Nat.leb n 90) ||
  (Nat.leb 97 n && Nat.leb n 122) || Nat.eqb n 95.
(** the characters of a Python string (no line of its own); for the templates rendered by model_builder.py 301-317 *)
Fixpoint chars_of (s : string) : list ascii :=
  match s with EmptyString => [] | String c s => c :: chars_of s end.
(** a Python string of its characters (no line of its own); for the templates rendered by model_builder.py 301-317 *)
Fixpoint of_chars (l : list ascii) : string :=
  match l with [] => EmptyString | c :: l => String c (of_chars l) end.
(** str.lstrip on characters, used by the lexer of jinja2; for the templates rendered by model_builder.py 301-317 *)
Fixpoint drop_space (l : list ascii) : list ascii :=
  match l with c :: r => if is_space c then drop_space r else l | [] => [] end.
(** str.lstrip, used by the lexer of jinja2 for [-%}]; for the templates rendered by model_builder.py 301-317 *)
Definition lstrip (s : string) : string := of_chars (drop_space (chars_of s)).
(** str.rstrip, used by the lexer of jinja2 for [{%-]; for the templates rendered by model_builder.py 301-317 *)
Definition rstrip (s : string) : string := of_chars (rev' (drop_space (rev' (chars_of s)))).
(** [s.split()] and [s.split('.')] *)
Fixpoint pieces (sep : ascii -> bool) (l : list ascii) (cur : list ascii) : list (list ascii) :=
  match l with
  | [] => [rev' cur]
  | c :: r => if sep c then rev' cur :: pieces sep r [] else pieces sep r (c :: cur)
  end.
(** str.split(): the words of a tag of the templates, rendered by model_builder.py 301-317 *)
Definition words (s : string) : list string :=
  map of_chars (filter (fun w => match w with [] => false | _ => true end) (pieces is_space (chars_of s) [])).
(** a.b.c of jinja2: the names between the dots, the templates, rendered by model_builder.py 301-317 *)
Definition dotted (s : string) : list string :=
  map of_chars (pieces (Ascii.eqb ".") (chars_of s) []).

(** ** the lexer of jinja2 *)
Inductive delim := Block | Variable_ | Comment.
(** jinja2: the opening delimiters of the templates, rendered by model_builder.py 301-317 *)
Definition opens (a b : ascii) : option delim :=
  if negb (Ascii.eqb a "{") then None
  else if Ascii.eqb b "%" then Some Block
  else if Ascii.eqb b "{" then Some Variable_
  else if Ascii.eqb b "#" then Some Comment
  else None.
(** jinja2: the closing delimiters of the templates, rendered by model_builder.py 301-317 *)
Definition closes (d : delim) (a b : ascii) : bool :=
  Ascii.eqb b "}" && Ascii.eqb a (match d with Block => "%" | Variable_ => "}" | Comment => "#" end).

(** jinja2: data and tags of the templates before the white space control, rendered by model_builder.py 301-317 *)
Inductive raw := RData (s : list ascii) | RTag (d : delim) (s : list ascii) | ROpen.
(** [d]: the tag being read, [acc]: what has been read, backwards *)
Fixpoint lex (d : option delim) (acc : list ascii) (s : string) : list raw :=
  match s with
  | EmptyString => match d with None => [RData (rev' acc)] | Some _ => [ROpen] end
  | String a s1 =>
      match s1 with
      | String b s2 =>
          match d with
          | None => match opens a b with
                    | Some d' => RData (rev' acc) :: lex (Some d') [] s2
                    | None => lex None (a :: acc) s1
                    end
          | Some d' => if closes d' a b then RTag d' (rev' acc) :: lex None [] s2 else lex d (a :: acc) s1
          end
      | EmptyString => lex d (a :: acc) s1
      end
  end.

(** [{%- x -%}]: the content of a tag, does it strip the data before, the data after *)
Definition marker (l : list ascii) : bool := match l with c :: _ => Ascii.eqb c "-" | [] => false end.
(** jinja2: the content of a tag without its minus sign; for the templates rendered by model_builder.py 301-317 *)
Definition unmark (l : list ascii) : list ascii := if marker l then tl l else l.
(** jinja2 [{%-]: strip the data before the tag; for the templates rendered by model_builder.py 301-317 *)
Definition tag_before (l : list ascii) : bool := marker l.
(** jinja2 [-%}]: strip the data after the tag; for the templates rendered by model_builder.py 301-317 *)
Definition tag_after (l : list ascii) : bool := marker (rev' l).
(** jinja2: the content of a tag; for the templates rendered by model_builder.py 301-317 *)
Definition tag_content (l : list ascii) : list ascii := unmark (rev' (unmark (rev' l))).

(** jinja2: the tokens of the templates, rendered by model_builder.py 301-317 *)
Inductive token := TData (s : string) | TTag (d : delim) (words : list string).
(** jinja2: white space control of the templates, rendered by model_builder.py 301-317 *)
Fixpoint tokens (after : bool) (l : list raw) : option (list token) :=
  match l with
  | [] => Some []
  | ROpen :: _ => None
  | RTag d s :: r =>
      match tokens (tag_after s) r with
      | Some ts => Some (TTag d (words (of_chars (tag_content s))) :: ts)
      | None => None
      end
  | RData s :: r =>
      let s := if after then lstrip (of_chars s) else of_chars s in
      let s := match r with RTag _ t :: _ => if tag_before t then rstrip s else s | _ => s end in
      match tokens false r with Some ts => Some (TData s :: ts) | None => None end
  end.

(** ** the parser of jinja2 *)
Inductive node :=
| NText (s : string)
| NOut (path : list string)
| NFor (x : string) (path : list string) (body : list node)
| NIf (path : list string) (body : list node).

(** jinja2: a name in the templates, rendered by model_builder.py 301-317 *)
Definition name (s : string) : bool :=
  match s with EmptyString => false | _ => forallb word_char (chars_of s) end.
(** jinja2: a dotted name in the templates, rendered by model_builder.py 301-317 *)
Definition path (s : string) : option (list string) :=
  let p := dotted s in if forallb name p then Some p else None.

(** jinja2: the open blocks for and if of the templates, rendered by model_builder.py 301-317 *)
Inductive frame := FFor (x : string) (p : list string) | FIf (p : list string).
(** [stack]: the open blocks with what stands before them, [cur]: the nodes read in the innermost
    block, both backwards *)
Fixpoint parse (ts : list token) (stack : list (frame * list node)) (cur : list node) : option (list node) :=
  match ts with
  | [] => match stack with [] => Some (rev' cur) | _ => None end
  | TData s :: r => parse r stack (NText s :: cur)
  | TTag Comment _ :: r => parse r stack cur
  | TTag Variable_ [e] :: r => match path e with Some p => parse r stack (NOut p :: cur) | None => None end
  | TTag Block ["for"; x; "in"; e] :: r =>
      match name x, path e with
      | true, Some p => parse r ((FFor x p, cur) :: stack) []
      | _, _ => None
      end
  | TTag Block ["if"; e] :: r =>
      match path e with Some p => parse r ((FIf p, cur) :: stack) [] | None => None end
  | TTag Block ["endfor"] :: r =>
      match stack with (FFor x p, before) :: st => parse r st (NFor x p (rev' cur) :: before) | _ => None end
  | TTag Block ["endif"] :: r =>
      match stack with (FIf p, before) :: st => parse r st (NIf p (rev' cur) :: before) | _ => None end
  | TTag _ _ :: _ => None
  end.

(** one line break at the end of the source is removed (keep_trailing_newline=False) *)
Definition newline : ascii := ascii_of_nat 10.
(** jinja2: the source of a template without its last line break; for the templates rendered by model_builder.py 301-317 *)
Fixpoint source (s : string) : string :=
  match s with
  | EmptyString => EmptyString
  | String c r => match r with EmptyString => if Ascii.eqb c newline then EmptyString else s | _ => String c (source r) end
  end.
(** jinja2 Template(text), model_builder.py 301-317 *)
Definition template (s : string) : option (list node) :=
  match tokens false (lex None [] (source s)) with Some ts => parse ts [] [] | None => None end.

(** ** rendering *)
Inductive value :=
| VStr (s : string) | VInt (n : nat) | VBool (b : bool)
| VObj (attrs : list (string * value)) | VList (l : list value) | VUndefined.
(** the arguments of Template.render, model_builder.py 301-317 *)
Definition context := list (string * value).

(** jinja2: a name of the context, undefined when absent; for the templates rendered by model_builder.py 301-317 *)
Definition find_value (x : string) (g : context) : value :=
  match dget string_dec x g with Some v => v | None => VUndefined end.
(** jinja2: value.name; an attribute of an undefined value is an error; for the templates rendered by model_builder.py 301-317 *)
Definition attribute (v : value) (a : string) : res value :=
  match v with
  | VObj attrs => Ok (find_value a attrs)
  | VUndefined => Err AttributeError
  | _ => Err NotImplementedError
  end.
(** jinja2: a dotted name of the templates, rendered by model_builder.py 301-317 *)
Definition value_of (g : context) (p : list string) : res value :=
  match p with [] => Err NotImplementedError | x :: r => foldM attribute (find_value x g) r end.
(** jinja2: what {{ x }} of the templates prints, rendered by model_builder.py 301-317 *)
Definition printed (v : value) : res string :=
  match v with
  | VStr s => Ok s
  | VInt n => Ok (str_nat n)
  | VBool true => Ok "True"
  | VBool false => Ok "False"
  | VUndefined => Ok ""
  | _ => Err NotImplementedError
  end.
(** jinja2: the condition of {% if x %} of the templates, rendered by model_builder.py 301-317 *)
Definition truth (v : value) : bool :=
  match v with
  | VStr s => negb (String.eqb s "")
  | VInt n => negb (Nat.eqb n 0)
  | VBool b => b
  | VObj _ => true
  | VList l => match l with [] => false | _ => true end
  | VUndefined => false
  end.
(** jinja2: the items of {% for y in x %} of the templates, rendered by model_builder.py 301-317 *)
Definition iterated (v : value) : res (list value) :=
  match v with VList l => Ok l | VUndefined => Ok [] | VStr _ => Err NotImplementedError | _ => Err TypeError end.

(** jinja2: rendering of a node of the templates, rendered by model_builder.py 301-317 *)
Fixpoint render_node (g : context) (n : node) : res string :=
  let fix all g l :=
    match l with [] => Ok "" | n :: r => a <- render_node g n ;; b <- all g r ;; Ok (a ++ b)%string end in
  match n with
  | NText s => Ok s
  | NOut p => v <- value_of g p ;; printed v
  | NFor x p body =>
      v <- value_of g p ;; l <- iterated v ;;
      (fix loop l := match l with
                     | [] => Ok ""
                     | v :: r => a <- all ((x, v) :: g) body ;; b <- loop r ;; Ok (a ++ b)%string
                     end) l
  | NIf p body => v <- value_of g p ;; if truth v then all g body else Ok ""
  end.
(** jinja2: rendering of the templates, rendered by model_builder.py 301-317 *)
Fixpoint render_nodes (g : context) (l : list node) : res string :=
  match l with [] => Ok "" | n :: r => a <- render_node g n ;; b <- render_nodes g r ;; Ok (a ++ b)%string end.
(** Template(text).render(..) with a context, model_builder.py 302-317 *)
Definition render (text : string) (g : context) : res string :=
  match template text with None => Err NotImplementedError | Some l => render_nodes g l end.

(** ** model_builder.py: what the templates see of the Meta objects (8-85) and of the builder *)
Record builder := {
  b_class : string;
  b_prognostic : list (string * string);      (* as_keyvar, trend; the index is the position *)
  b_exogenous : list string;                  (* as_keyvar; the index is the position *)
  b_coordinates : list string;
  b_constants : list string;
  b_constant_functions : list string;
  b_derivatives : list (string * string);     (* as_keyvar, as_code *)
  b_trend : list string
}.
(** enumerate, model_builder.py 187-203: the index of a Meta object *)
Fixpoint numbered {A} (i : nat) (l : list A) : list (nat * A) :=
  match l with [] => [] | a :: r => (i, a) :: numbered (S i) r end.

(** MetaFunction, model_builder.py 8-21, as the templates see it *)
Definition meta_function (p : nat * string) : value :=
  VObj [("as_keyvar", VStr (snd p)); ("index", VInt (fst p))].
(** MetaPrognosticFunction, model_builder.py 23-30, as the templates see it *)
Definition meta_prognostic (p : nat * (string * string)) : value :=
  VObj [("as_keyvar", VStr (fst (snd p))); ("index", VInt (fst p)); ("trend", VStr (snd (snd p)))].
(** MetaConstant, model_builder.py 61-71, as the templates see it *)
Definition meta_constant (k : string) : value := VObj [("as_keyvar", VStr k)].
(** MetaDerivative, model_builder.py 33-59, as the templates see it *)
Definition meta_derivative (p : string * string) : value :=
  VObj [("as_keyvar", VStr (fst p)); ("as_code", VStr (snd p))].
(** the flags given to the templates, model_builder.py 309, 312, 314 *)
Definition not_empty {A} (l : list A) : bool := match l with [] => false | _ => true end.

(** 305-317 *)
Definition render_context (b : builder) : context :=
  [("class_name", VStr (b_class b));
   ("prognostic_functions", VList (map meta_prognostic (numbered 0 (b_prognostic b))));
   ("exogenous_functions", VList (map meta_function (numbered 0 (b_exogenous b))));
   ("exogenous_functions_flag", VBool (not_empty (b_exogenous b)));
   ("coordinates", VList (map meta_function (numbered 0 (b_coordinates b))));
   ("constants", VList (map meta_constant (b_constants b)));
   ("constants_flag", VBool (not_empty (b_constants b)));
   ("constant_functions", VList (map meta_function (numbered 0 (b_constant_functions b))));
   ("constant_functions_flag", VBool (not_empty (b_constant_functions b)));
   ("spatial_derivatives", VList (map meta_derivative (b_derivatives b)));
   ("trend_code", VList (map VStr (b_trend b)))].

(** 282-319; [body] is template_body, model_builder_FD.py 35-36, model_builder_manifold.py 16-17 *)
Definition code (body : string) (b : builder) : res string :=
  foldM (fun code text => r <- render text (render_context b) ;; Ok (code ++ r)%string) ""
        [header; body; footer].

(** 321-334: the file written, its name and its text.  [str.lower] for ASCII letters. *)
Definition lower_char (c : ascii) : ascii :=
  let n := nat_of_ascii c in if Nat.leb 65 n && Nat.leb n 90 then ascii_of_nat (n + 32) else c.
(** str.lower of ASCII letters, model_builder.py 326 *)
Definition lower (s : string) : string := of_chars (map lower_char (chars_of s)).
(** model_builder.py 326-327, the name of the file *)
Definition module_file (b : builder) : string := (lower (b_class b) ++ ".py")%string.
(** model_builder.py 323-330, the text of the file *)
Definition module_text (body : string) (b : builder) : res string :=
  c <- code body b ;; Ok (licence ++ c)%string.
(** the files of the working directory after write_module *)
Definition write_module (body : string) (b : builder) (files : dict string string) : res (dict string string) :=
  t <- module_text body b ;; Ok (dset string_dec (module_file b) t files).
