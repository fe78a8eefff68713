(** The generated finite-difference model: constructor and index cache,
    /repo/src/sympkf/symbolic/templates/body_FDModelBuilder.py.

    Modelled: the constructor (2-73) and [index] (75-80) of the class text produced by
    the template, for any tuple of coordinate names and any declared constants; numpy's
    [a[np.ix_(I0,I1,...)]] fancy indexing used by the generated derivatives.
    Simplifications: shape entries are naturals; the attributes other than the grid
    are a dictionary from names to values; warnings printed at 51-52 and 71-72 are the
    list of names they mention; a coordinate tuple is distinct names. *)
From Coq Require Import List Arith ZArith Bool String.
From Verif Require Import PyBase Scalars FieldFacts.
Import ListNotations.
Open Scope list_scope.

Notation ikey := (string * Z)%type.
(** equality of the keys (coord,step), body_FDModelBuilder.py 78-80 *)
Definition ikey_dec (a b : ikey) : {a = b} + {a <> b}.
Proof. decide equality; [apply Z.eq_dec|apply string_dec]. Defined.

(** [np.arange(n, dtype=int)] *)
Definition arange_int (n : nat) : list Z := map Z.of_nat (seq 0 n).

(** [tuple.index(x)] *)
Fixpoint pos_of (c : string) (l : list string) : option nat :=
  match l with
  | [] => None
  | d :: r => if string_dec c d then Some 0 else option_map S (pos_of c r)
  end.

(** the cache [self._index] *)
Notation cache := (dict (string * Z) (list Z)).

(** body_FDModelBuilder.py 24-27 *)
Definition init_index (coords : list string) (shape : list nat) : res cache :=
  foldM (fun d kc =>
      match nth_error shape (fst kc) with
      | None => Err IndexError
      | Some n => Ok (dset ikey_dec (snd kc, 0%Z) (arange_int n) d)
      end) [] (combine (seq 0 (List.length coords)) coords).

(** body_FDModelBuilder.py 75-80: returned value and new cache.  The right-hand side of
    line 79 is evaluated before the assignment; [%] with a modulus 0 only meets an empty
    array. *)
Definition index (coords : list string) (shape : list nat) (d : cache) (c : string) (step : Z)
  : res (list Z) * cache :=
  match dget ikey_dec (c, step) d with
  | Some a => (Ok a, d)
  | None =>
      match dget ikey_dec (c, 0%Z) d with
      | None => (Err KeyError, d)
      | Some a0 =>
          match pos_of c coords with
          | None => (Err ValueError, d)
          | Some k =>
              match nth_error shape k with
              | None => (Err IndexError, d)
              | Some n =>
                  let a := map (fun i => ((i + step) mod Z.of_nat n)%Z) a0 in
                  let d := dset ikey_dec (c, step) a d in
                  (Ok a, d)
              end
          end
      end
  end.

(** a history of calls on one model object: the cache is the only state *)
Fixpoint index_calls (coords : list string) (shape : list nat) (d : cache)
    (calls : list (string * Z)) : list (res (list Z)) * cache :=
  match calls with
  | [] => ([], d)
  | (c, s) :: r =>
      let '(v, d) := index coords shape d c s in
      let '(vs, d) := index_calls coords shape d r in
      (v :: vs, d)
  end.

(** the returned array is the cached object itself: a caller writing into it writes into
    the cache ([model.index(c,s)[:] = a]) *)
Definition write_returned (coords : list string) (shape : list nat) (d : cache) (c : string) (s : Z)
    (a : list Z) : cache :=
  let '(v, d) := index coords shape d c s in
  match v with Ok _ => dset ikey_dec (c, s) a d | Err _ => d end.

Section Grid.
  Context {K : Fld}.
  Open Scope fld_scope.

  (** the attributes set by body_FDModelBuilder.py 10-33 *)
  Record grid := mkGrid {
    g_shape : list nat; g_lengths : list K;
    g_index : cache;
    g_dx : list K;
    g_x : list (list K);
    g_X_shapes : list (list nat) }.

  (** [np.meshgrid( *x )] with the default indexing='xy': one array per coordinate, all
      of the shape obtained by exchanging the first two axes *)
  Definition meshgrid_shape (l : list nat) : list nat :=
    match l with a :: b :: r => b :: a :: r | _ => l end.

  (** body_FDModelBuilder.py 31: the division of a length by an integer shape *)
  Definition div_shape (ls : K * nat) : res K :=
    if Nat.eqb (snd ls) 0 then Err ZeroDivisionError else Ok (fst ls / fnat (snd ls)).

  (** body_FDModelBuilder.py 10-33 *)
  Definition grid_init (coords : list string) (shape : option (list nat)) (lengths : option (list K))
    : res grid :=
    let nc := List.length coords in
    let shape := match shape with None => repeat 100%nat nc | Some s => s end in
    if negb (Nat.eqb (List.length shape) nc) then Err ValueError
    else
    let lengths := match lengths with None => repeat 1 nc | Some l => l end in
    if negb (Nat.eqb (List.length lengths) nc) then Err ValueError
    else
    idx <- init_index coords shape ;;
    dx <- mapM div_shape (combine lengths shape) ;;
    xs <- foldM (fun st cd =>
            let '(xs, idx) := st : list (list K) * cache in
            let '(v, idx) := index coords shape idx (fst cd) 0%Z in
            a <- v ;; Ok (xs ++ [map (fun i => fz i * snd cd) a], idx))
          ([], idx) (combine coords dx) ;;
    Ok (mkGrid shape lengths (snd xs) dx (fst xs)
          (repeat (meshgrid_shape shape) nc)).

  (** ** the object: body_FDModelBuilder.py 2-73 *)
  (** attribute values; [NaN] is the object [np.nan] itself (lines 51 and 71 use [is]) *)
  Inductive attr :=
    | NaN | Val (v : K)
    | AShape (l : list nat) | ALengths (l : list K) | AIndex (d : cache)
    | ADx (l : list K) | Ax (l : list (list K)) | AX (shapes : list (list nat)).

  (** lines 15, 22, 25, 31, 32, 33, in the order of the assignments *)
  Definition grid_attrs (g : grid) : dict string attr :=
    let st n v a := dset string_dec n v a in
    st "X"%string (AX (g_X_shapes g)) (st "x"%string (Ax (g_x g)) (st "dx"%string (ADx (g_dx g))
      (st "_index"%string (AIndex (g_index g)) (st "lengths"%string (ALengths (g_lengths g))
        (st "shape"%string (AShape (g_shape g)) []))))).

  (** 40-47 and 60-67: default nan, then keywords whose name is declared *)
  Definition set_block (names : list string) (kwargs : list (string * attr)) (attrs : dict string attr)
    : dict string attr :=
    let attrs := fold_left (fun a n => dset string_dec n NaN a) names attrs in
    fold_left (fun a kv => if lmem string_dec (fst kv) names then dset string_dec (fst kv) (snd kv) a else a)
              kwargs attrs.

  (** [getattr(self, name) is np.nan], body_FDModelBuilder.py 51, 71 *)
  Definition is_nan (v : option attr) : bool := match v with Some NaN => true | _ => false end.
  (** 49-52 and 69-72 *)
  Definition warn_block (names : list string) (attrs : dict string attr) : list string :=
    filter (fun n => is_nan (dget string_dec n attrs)) names.

  (** constant functions first, then constants; an absent block is the empty tuple *)
  Definition set_constants (cfuncs consts : list string) (kwargs : list (string * attr))
      (attrs : dict string attr) : dict string attr * list string :=
    let a1 := set_block cfuncs kwargs attrs in
    let w1 := warn_block cfuncs a1 in
    let a2 := set_block consts kwargs a1 in
    let w2 := warn_block consts a2 in
    (a2, w1 ++ w2).

  (** the whole constructor.  [shape] and [lengths] are parameters, so [kwargs] never
      contains them.  What [Model.__init__] (line 4) sets from [kwargs] is not an
      attribute of this model. *)
  Definition construct (coords cfuncs consts : list string) (shape : option (list nat))
      (lengths : option (list K)) (kwargs : list (string * attr))
    : res (dict string attr * list string) :=
    g <- grid_init coords shape lengths ;;
    Ok (set_constants cfuncs consts kwargs (grid_attrs g)).

  (** ** arrays on the grid *)
  (** an array is its value at each multi-index *)
  Definition arr := list nat -> K.

  (** numpy [a[np.ix_(I0,...,In)]]: result[j0..jn] = a[I0[j0],...,In[jn]] *)
  Fixpoint ix_pos (Is : list (list Z)) (js : list nat) : list nat :=
    match Is, js with
    | ax :: Is, j :: js => Z.to_nat (nth j ax 0%Z) :: ix_pos Is js
    | _, _ => []
    end.
  (** numpy [a[np.ix_(I0,..,In)]], the code of finite_difference.py 328-336 *)
  Definition np_ix (a : arr) (Is : list (list Z)) : arr := fun js => a (ix_pos Is js).

  (** finite_difference.py 325-336: a displaced function is read as the bare array when
      no step is non-zero, and as [u[np.ix_(self.index(c0,s0),...)]] otherwise; the calls
      to [index] go through the cache *)
  Fixpoint index_all (coords : list string) (shape : list nat) (d : cache) (cs : list (string * Z))
    : res (list (list Z)) * cache :=
    match cs with
    | [] => (Ok [], d)
    | (c, s) :: r =>
        let '(v, d) := index coords shape d c s in
        match v with
        | Err e => (Err e, d)
        | Ok a => let '(vs, d) := index_all coords shape d r in
                  (match vs with Ok l => Ok (a :: l) | Err e => Err e end, d)
        end
    end.

  (** the value of the code of finite_difference.py 325-336 *)
  Definition read_displaced (coords : list string) (shape : list nat) (d : cache) (a : arr) (disp : list Z)
    : res arr * cache :=
    if existsb (fun s => negb (Z.eqb s 0)) disp
    then let '(v, d) := index_all coords shape d (combine coords disp) in
         (match v with Ok l => Ok (np_ix a l) | Err e => Err e end, d)
    else (Ok a, d).

  (** evaluation of the generated right-hand side of a derivative: a linear combination
      of displaced arrays *)
  Fixpoint eval_terms (coords : list string) (shape : list nat) (d : cache) (a : arr)
      (l : list (K * list Z)) : res arr * cache :=
    match l with
    | [] => (Ok (fun _ => 0), d)
    | (c, disp) :: r =>
        let '(v, d) := read_displaced coords shape d a disp in
        match v with
        | Err e => (Err e, d)
        | Ok b => let '(w, d) := eval_terms coords shape d a r in
                  (match w with Ok b' => Ok (fun js => c * b js + b' js) | Err e => Err e end, d)
        end
    end.
End Grid.
