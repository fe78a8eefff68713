(** The substitution tree of univariate terms: /repo/src/sympkf/symbolic/pkfcas.py
    1192-1270, the class [UnivariateTree].

    Simplifications.  The random field [epsilon] and the spatial coordinates are those of
    one field.  The term E[D^a eps D^b eps] is the unordered pair {a,b} (sympy orders the
    factors of a product), kept in lexicographic order.  An expression is a sum of
    coefficient * (iterated derivative of such a term); sympy's unevaluated derivative of
    a sum is identified with the sum of derivatives.  1252-1257 compute
    [isolate] of the equation
      D_x E[D^a' eps D^b eps] = E[D^a eps D^b eps] + E[D^a' eps D^(b+x) eps]
    for its first right-hand term: the result is the difference of the two others (the two
    terms on the right are different, see TreeProofs.[keys_differ]).
    [subs] with a dictionary replaces one key after the other in an order chosen by sympy:
    [enumD] is that order, an arbitrary rearrangement. *)
From Coq Require Import List Arith ZArith Bool String.
From Verif Require Import PyBase PartialOrderModel.
Import ListNotations.
Open Scope list_scope.

Notation mi := (list Z).
Notation ekeyT := (list Z * list Z)%type.
(** equality of terms, for the dictionaries of pkfcas.py 1263-1264 *)
Definition ekey_dec : forall a b : ekeyT, {a = b} + {a <> b}.
Proof. decide equality; apply ztuple_dec. Defined.

(** an order of multi-indices: E[a*b] and E[b*a] are one term, pkfcas.py 1249-1250 *)
Fixpoint lex_le (a b : mi) : bool :=
  match a, b with
  | [], _ => true
  | _ :: _, [] => false
  | x :: a, y :: b => if (x <? y)%Z then true else if (y <? x)%Z then false else lex_le a b
  end.
(** the term E[D^a eps D^b eps] *)
Definition ekey (a b : mi) : ekeyT := if lex_le a b then (a, b) else (b, a).

(** coefficient, derivatives, term *)
Notation tterm := (Z * list string * ekeyT)%type.
Notation texp := (list (Z * list string * (list Z * list Z))).
Notation tdict := (dict (list Z * list Z) (list (Z * list string * (list Z * list Z)))).

(** replacement of one term by an expression, also under derivatives *)
Definition subs_one (kv : ekeyT * texp) (e : texp) : texp :=
  flat_map (fun t => let '(c, ds, k) := t in
      if ekey_dec k (fst kv) then map (fun t2 => let '(c2, ds2, k2) := t2 in ((c * c2)%Z, ds ++ ds2, k2)) (snd kv)
      else [t]) e.
(** [subs_term.subs(self._tree)], pkfcas.py 1262 *)
Definition subs_dict (enumD : tdict -> tdict) (d : tdict) (e : texp) : texp :=
  fold_left (fun e kv => subs_one kv e) (enumD d) e.

(** the object: 1205-1211 *)
Record tree := mkTree { t_degree : nat; t_levels : dict nat tdict; t_tree : tdict }.
(** pkfcas.py 1205-1211 *)
Definition tree_init : tree := mkTree 0 [] [].

(** the orders of D^(b+x) *)
Definition bump (coords : list string) (x : string) (b : mi) : res mi :=
  i <- cindex x coords ;; Ok (set_nth i (nth i b 0 + 1)%Z b).

Section Tree.
  Variable enum : list mi -> list mi.
  Variable enumD : tdict -> tdict.
  Variable self_substitute : bool.
  Variable coords : list string.

  (** 1239-1246: the pairs (alpha, beta) in the order of the loops *)
  Definition pairs_of (degree alpha_degree : nat) : res (list (pod * pod)) :=
    alphas <- all_of_degree enum coords (Z.of_nat alpha_degree) ;;
    pss <- mapM (fun alpha =>
             betas <- all_of_degree enum coords (Z.of_nat (degree - alpha_degree)) ;;
             Ok (map (pair alpha) betas)) alphas ;;
    Ok (List.concat pss).

  (** 1244 and 1248-1264 *)
  Definition tree_step (st : tdict * tdict) (ab : pod * pod) : res (tdict * tdict) :=
    let '(tr, level) := st in
    let '(alpha, beta) := ab in
    match as_sequence alpha with
    | [] => Err IndexError
    | x :: rest =>
        sub_alpha <- pod_new alpha (VList (map VCoord rest)) ;;
        bx <- bump coords x (p_tuple beta) ;;
        let term := ekey (p_tuple alpha) (p_tuple beta) in
        let subs_term := [(1%Z, [x], ekey (p_tuple sub_alpha) (p_tuple beta));
                          ((-1)%Z, [], ekey (p_tuple sub_alpha) bx)] in
        let subs_term := if self_substitute then subs_dict enumD tr subs_term else subs_term in
        Ok (dset ekey_dec term subs_term tr, dset ekey_dec term subs_term level)
    end.

  (** 1231-1266: the degree is increased first, so it is kept if an exception is raised
      (that only happens without coordinates, before anything else is stored) *)
  Definition add_level (st : tree) : res unit * tree :=
    let degree := S (t_degree st) in
    match
      (st1 <- foldM (fun st alpha_degree =>
                ps <- pairs_of degree alpha_degree ;;
                foldM tree_step st ps)
              (t_tree st, []) (seq 1 (degree / 2)) ;;
       Ok st1)
    with
    | Err e => (Err e, mkTree degree (t_levels st) (t_tree st))
    | Ok (tr, level) => (Ok tt, mkTree degree (dset Nat.eq_dec degree level (t_levels st)) tr)
    end.

  (** pkfcas.py 1221-1222 *)
  Fixpoint add_levels (n : nat) (st : tree) : res unit * tree :=
    match n with
    | O => (Ok tt, st)
    | S n => let '(r, st) := add_level st in
             match r with Err e => (Err e, st) | Ok _ => add_levels n st end
    end.

  (** [dict.update] *)
  Definition update (d e : tdict) : tdict := fold_left (fun d kv => dset ekey_dec (fst kv) (snd kv) d) e d.

  (** 1213-1229 *)
  Definition tree_call (st : tree) (degree : option nat) : res tdict * tree :=
    let degree := match degree with None => t_degree st | Some d => d end in
    let '(r, st) := add_levels (degree - t_degree st) st in
    match r with
    | Err e => (Err e, st)
    | Ok _ => (Ok (fold_left (fun t ld => if (degree <? fst ld) then t else update t (snd ld)) (t_levels st) []), st)
    end.

  (** a history of calls on one object *)
  Definition tree_calls (st : tree) (calls : list (option nat)) : tree :=
    fold_left (fun st c => snd (tree_call st c)) calls st.
End Tree.
