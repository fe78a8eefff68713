(** src/sympkf/symbolic/pkfcas.py: SymbolicPKF (30-837), UnivariateTerm (839-903),
    Field.internal_closure (964-998), on the expressions that occur in it.

    What sympy stores as a tree and rewrites by [expand] and [doit] is kept here expanded and
    evaluated all the time: a polynomial with rational coefficients in
      - derivatives of functions ([AJet]; the variables of a derivative are sorted, as sympy
        does),
      - derivatives of averages of products of derivatives of random functions ([AExp]),
      - constants ([ACst]), the formal small parameter ([ASmall]),
      - the square root of a variance and its inverse ([ASig], [AIsig]; a variance is the
        product of two [ASig]).
    Consequences of this representation: Eq objects are pairs of polynomials;
    [subs] of a dictionary replaces one key after the other, in an order chosen by sympy and
    left open here ([enumC]); [expand], [doit] and [simplify] have nothing left to do.

    Simplifications: the equations are D_t u_i = polynomial in the prognostic functions, in
    other deterministic functions, in their derivatives and in constants; all prognostic
    functions have the same coordinates. *)
From Coq Require Import List Arith NArith ZArith QArith Bool String Ascii.
From Verif Require Import PyBase PartialOrderModel TreeModel.
Import ListNotations.
Close Scope Q_scope.
Close Scope N_scope.
Open Scope nat_scope.
Open Scope string_scope.
Open Scope list_scope.
Open Scope py_scope.

(** ** functions.  [i] is the position of the prognostic function in [self.fields].
    Field.__init__, 921-962. *)
Inductive fn :=
| FField (i : nat)                     (* value: u_i(t,x) *)
| FMean (i : nat)                      (* Expectation(random) *)
| FErr (i : nat) | FEps (i : nat)      (* error, epsilon *)
| FVar (i : nat)                       (* variance *)
| FStd (i : nat)                       (* std, 941 *)
| FMet (i a b : nat)                   (* metric_func(a,b) with a <= b: 1000-1006 *)
| FCov (i j : nat)                     (* get_covariance(f_i,f_j), 721-739 *)
| FDif (i a b : nat)                   (* nu_func(a,b) with a <= b: 1011-1013 *)
| FAsp (i a b : nat)                   (* aspect_func(a,b) with a <= b: 1015-1017 *)
| FInvDif (i a b : nat)                (* entry of diffusion.inv() *)
| FInvAsp (i a b : nat)                (* entry of aspect.inv() *)
| FExt (k : nat) (deps : list string). (* any other function, of the coordinates deps *)

Notation word := (list string).
Notation jet := (fn * list string)%type.

(** the factors of the terms of the expanded expressions of pkfcas.py 31-837 *)
Inductive atom :=
| AJet (f : fn) (w : word)                     (* Derivative(f, *w), or f *)
| AExp (w : word) (l : list (fn * list string)) (* derivative of Expectation(product of l) *)
| ACst (k : nat)
| ASmall                                       (* epsilon = symbols('\\varepsilon'), line 89 *)
| ASig (i : nat) | AIsig (i : nat).            (* sqrt(variance), 1/sqrt(variance) *)

Definition fn_eq_dec (a b : fn) : {a = b} + {a <> b}.
Proof. repeat decide equality. Defined.
(** equality of expressions of sympy, which [subs] and dictionaries use (pkfcas.py 80-823) *)
Definition jet_eq_dec (a b : jet) : {a = b} + {a <> b}.
Proof. decide equality; [apply (list_eq_dec string_dec)|apply fn_eq_dec]. Defined.
(** equality of expressions of sympy, which [subs] and dictionaries use (pkfcas.py 80-823) *)
Definition jets_eq_dec (a b : list jet) : {a = b} + {a <> b} := list_eq_dec jet_eq_dec a b.
(** equality of expressions of sympy, which [subs] and dictionaries use (pkfcas.py 80-823) *)
Definition atom_eq_dec (a b : atom) : {a = b} + {a <> b}.
Proof.
  decide equality; try apply Nat.eq_dec; try apply (list_eq_dec string_dec); try apply fn_eq_dec.
  apply jets_eq_dec.
Defined.

(** ** an order on atoms, to keep products sorted (any order would do) *)
Definition ncode (n : nat) : N := N.of_nat n.
(** an order for the expanded expressions of pkfcas.py 80-823; sympy has its own, no property depends on it *)
Definition scode (s : string) : list N := ncode (String.length s) :: map N_of_ascii (list_ascii_of_string s).
(** an order for the expanded expressions of pkfcas.py 80-823; sympy has its own, no property depends on it *)
Definition fcode (f : fn) : list N :=
  match f with
  | FField i => [1%N; ncode i] | FMean i => [2%N; ncode i] | FErr i => [3%N; ncode i]
  | FEps i => [4%N; ncode i] | FVar i => [5%N; ncode i] | FStd i => [13%N; ncode i]
  | FMet i a b => [6%N; ncode i; ncode a; ncode b]
  | FCov i j => [7%N; ncode i; ncode j]
  | FDif i a b => [8%N; ncode i; ncode a; ncode b] | FAsp i a b => [9%N; ncode i; ncode a; ncode b]
  | FInvDif i a b => [10%N; ncode i; ncode a; ncode b] | FInvAsp i a b => [11%N; ncode i; ncode a; ncode b]
  | FExt k d => 12%N :: ncode k :: flat_map scode d
  end.
(** an order for the expanded expressions of pkfcas.py 80-823; sympy has its own, no property depends on it *)
Definition jcode (j : jet) : list N := fcode (fst j) ++ 0%N :: ncode (List.length (snd j)) :: flat_map scode (snd j).
(** an order for the expanded expressions of pkfcas.py 80-823; sympy has its own, no property depends on it *)
Definition acode (a : atom) : list N :=
  match a with
  | ACst k => [1%N; ncode k] | ASmall => [2%N]
  | ASig i => [3%N; ncode i] | AIsig i => [4%N; ncode i]
  | AJet f w => 5%N :: jcode (f, w)
  | AExp w l => 6%N :: ncode (List.length w) :: flat_map scode w ++ flat_map (fun j => 1%N :: jcode j) l
  end.
(** an order for the expanded expressions of pkfcas.py 80-823; sympy has its own, no property depends on it *)
Fixpoint nlt (a b : list N) : bool :=
  match a, b with
  | [], [] => false | [], _ => true | _, [] => false
  | x :: a, y :: b => if N.ltb x y then true else if N.ltb y x then false else nlt a b
  end.
(** an order for the expanded expressions of pkfcas.py 80-823; sympy has its own, no property depends on it *)
Definition atom_lt (a b : atom) : bool := nlt (acode a) (acode b).
(** an order for the expanded expressions of pkfcas.py 80-823; sympy has its own, no property depends on it *)
Definition mono_lt (a b : list atom) : bool := nlt (flat_map (fun x => acode x ++ [0%N]) a) (flat_map (fun x => acode x ++ [0%N]) b).

(** ** products of atoms *)
Notation mono := (list atom).
(** sqrt(V) and 1/sqrt(V) cancel in a product of sympy, pkfcas.py 284-293, 717 *)
Definition inverse (a : atom) : option atom :=
  match a with ASig i => Some (AIsig i) | AIsig i => Some (ASig i) | _ => None end.
(** sympy Mul: a factor put at its place (for the expanded expressions of pkfcas.py 80-823) *)
Fixpoint insert_atom (a : atom) (m : mono) : mono :=
  match m with [] => [a] | b :: r => if atom_lt b a then b :: insert_atom a r else a :: m end.
(** remove one occurrence *)
Fixpoint remove_atom (a : atom) (m : mono) : option mono :=
  match m with
  | [] => None
  | b :: r => if atom_eq_dec a b then Some r
              else match remove_atom a r with Some r => Some (b :: r) | None => None end
  end.
(** sympy Mul of a factor and a product (for the expanded expressions of pkfcas.py 80-823) *)
Definition mins (a : atom) (m : mono) : mono :=
  match inverse a with
  | None => insert_atom a m
  | Some b => match remove_atom b m with Some r => r | None => insert_atom a m end
  end.
(** sympy Mul of two products (for the expanded expressions of pkfcas.py 80-823) *)
Definition mmul (a b : mono) : mono := fold_right mins b a.

(** ** polynomials: sorted lists of terms, no zero coefficient *)
Notation poly := (list (Q * list atom)).
(** sympy Add of a term and a sum: equal terms are collected (for the expanded expressions of pkfcas.py 80-823) *)
Fixpoint pins (t : Q * mono) (p : poly) : poly :=
  if Qeq_bool (fst t) 0 then p
  else match p with
       | [] => [t]
       | u :: r => if list_eq_dec atom_eq_dec (snd t) (snd u) then
                     let c := Qred (fst t + fst u)%Q in if Qeq_bool c 0 then r else (c, snd u) :: r
                   else if mono_lt (snd u) (snd t) then u :: pins t r else t :: p
       end.
(** sympy Add (for the expanded expressions of pkfcas.py 80-823) *)
Definition padd (p q : poly) : poly := fold_right pins q p.
(** sympy Mul by a number, expanded (for the expanded expressions of pkfcas.py 80-823) *)
Definition pscale (c : Q) (p : poly) : poly := fold_right (fun t q => pins (Qred (c * fst t)%Q, snd t) q) [] p.
(** sympy subtraction (for the expanded expressions of pkfcas.py 80-823) *)
Definition psub (p q : poly) : poly := padd p (pscale (-1) q).
(** sympy Mul by one term, expanded (for the expanded expressions of pkfcas.py 80-823) *)
Definition pmulm (c : Q) (m : mono) (p : poly) : poly :=
  fold_right (fun t q => pins (Qred (c * fst t)%Q, mmul m (snd t)) q) [] p.
(** sympy Mul, expanded (for the expanded expressions of pkfcas.py 80-823) *)
Definition pmul (p q : poly) : poly := fold_right (fun t r => padd (pmulm (fst t) (snd t) q) r) [] p.
(** the number 1 (for the expanded expressions of pkfcas.py 80-823) *)
Definition pone : poly := [(1%Q, [])].
(** a number (for the expanded expressions of pkfcas.py 80-823) *)
Definition pconst (c : Q) : poly := pins (Qred c, []) [].
(** a factor as an expression (for the expanded expressions of pkfcas.py 80-823) *)
Definition patom (a : atom) : poly := [(1%Q, mins a [])].
(** sympy Mul of several expressions, expanded (for the expanded expressions of pkfcas.py 80-823) *)
Definition pprod (l : list poly) : poly := fold_right pmul pone l.
(** sympy Add of several expressions (for the expanded expressions of pkfcas.py 80-823) *)
Definition psum (l : list poly) : poly := fold_right padd [] l.

(** ** derivatives *)
Definition string_lt (a b : string) : bool := match String.compare a b with Lt => true | _ => false end.
(** Derivative(Derivative(f, *w), c): the variables of a derivative, sorted (for the expanded expressions of pkfcas.py 80-823) *)
Fixpoint winsert (c : string) (w : word) : word :=
  match w with [] => [c] | d :: r => if string_lt d c then d :: winsert c r else c :: w end.

(** f(..) and its derivatives; a function is not differentiated by what it does not depend on;
    a variance is the square of its square root *)
Definition pjet (f : fn) (w : word) : poly :=
  match f, w with
  | FVar i, [] => [(1%Q, [ASig i; ASig i])]
  | FExt _ deps, _ => if forallb (fun c => lmem string_dec c deps) w then [(1%Q, [AJet f w])] else []
  | _, _ => [(1%Q, [AJet f w])]
  end.

(** Derivative(.., c).doit() of a factor, pkfcas.py 102, 233-241, 288-291, 421-426 *)
Definition datom (c : string) (a : atom) : poly :=
  match a with
  | AJet f w => pjet f (winsert c w)
  | AExp w l => [(1%Q, [AExp (winsert c w) l])]
  | ACst _ | ASmall => []
  | ASig i => pmulm (1 # 2) [AIsig i] (pjet (FVar i) [c])
  | AIsig i => pmulm (-1 # 2) [AIsig i; AIsig i; AIsig i] (pjet (FVar i) [c])
  end.
(** the same of a product: Leibniz (pkfcas.py 102, 233-241, 288-291, 421-426) *)
Fixpoint dmono (c : string) (m : mono) : poly :=
  match m with
  | [] => []
  | a :: r => padd (pmulm 1 r (datom c a)) (pmulm 1 [a] (dmono c r))
  end.
(** the same of a sum (pkfcas.py 102, 233-241, 288-291, 421-426) *)
Definition pderiv (c : string) (p : poly) : poly :=
  fold_right (fun t q => padd (pscale (fst t) (dmono c (snd t))) q) [] p.
(** repeated derivatives (pkfcas.py 102, 426, 753, 816) *)
Definition pderivs (w : word) (p : poly) : poly := fold_right pderiv p w.

(** ** Expectation(p), symbolic/random.py 48-121, on an expanded sum: term by term (81-87), the
    deterministic factors are pulled out (89-102); of a single derivative only the first
    variable is kept (104-105) *)
Definition is_random (f : fn) : bool := match f with FErr _ | FEps _ => true | _ => false end.
(** random.py 95-98: the random factors of a term *)
Definition random_jets (m : mono) : list jet :=
  flat_map (fun a => match a with AJet f w => if is_random f then [(f, w)] else [] | _ => [] end) m.
(** random.py 95-98: the deterministic factors of a term *)
Definition det_part (m : mono) : mono :=
  filter (fun a => match a with AJet f _ => negb (is_random f) | _ => true end) m.
(** random.py 105: only args[1], the first variable with its order, is kept *)
Fixpoint first_group (w : word) : word :=
  match w with
  | [] => []
  | c :: r => c :: (match r with d :: _ => if string_dec c d then first_group r else [] | [] => [] end)
  end.
(** random.py 102, 104-105, 121: the average of the random factors *)
Definition expect_jets (l : list jet) : poly :=
  match l with
  | [] => pone
  | [(f, w)] => [(1%Q, [AExp (first_group w) [(f, [])]])]
  | _ => [(1%Q, [AExp [] l])]
  end.
(** random.py 48-121 on an expanded sum *)
Definition expect (p : poly) : poly :=
  psum (map (fun t => pmulm (fst t) (det_part (snd t)) (expect_jets (random_jets (snd t)))) p).

(** ** subs: replacement of functions and their derivatives, also inside averages, which are
    then evaluated again; the derivatives of an average are those of its new value *)
Definition asubst (g : fn -> word -> poly) (a : atom) : poly :=
  match a with
  | AJet f w => g f w
  | AExp w l => pderivs w (expect (pprod (map (fun j => g (fst j) (snd j)) l)))
  | _ => patom a
  end.
(** [expr.subs(..).doit()] for functions and their derivatives, pkfcas.py 102, 241, 291, 324 *)
Definition psubst (g : fn -> word -> poly) (p : poly) : poly :=
  psum (map (fun t => pscale (fst t) (pprod (map (asubst g) (snd t)))) p).

(** replacement of one function *)
Definition sub_fn (f : fn) (v : poly) (p : poly) : poly :=
  psubst (fun f' w => if fn_eq_dec f' f then pderivs w v else pjet f' w) p.
(** replacement of the time derivative of one function *)
Fixpoint wremove (c : string) (w : word) : option word :=
  match w with
  | [] => None
  | d :: r => if string_dec c d then Some r else match wremove c r with Some r => Some (d :: r) | None => None end
  end.
(** [rhs.subs(trends).doit()], one trend: pkfcas.py 239, 289-290, 380, 426, 538, 638 *)
Definition sub_trend (f : fn) (v : poly) (p : poly) : poly :=
  psubst (fun f' w => if fn_eq_dec f' f then match wremove "t" w with Some w' => pderivs w' v | None => pjet f' w end
                      else pjet f' w) p.
(** replacement of one average *)
Definition sub_exp (l : list jet) (v : poly) (p : poly) : poly :=
  psum (map (fun t => pscale (fst t) (pprod (map (fun a => match a with
      | AExp w l' => if jets_eq_dec l' l then pderivs w v else patom a
      | _ => patom a
      end) (snd t)))) p).

Notation edict := (dict (list jet) poly).
(** [expr.subs(dictionary of averages)], pkfcas.py 169, 186, 463, 684, 787, 819, 822 *)
Definition sub_exps (d : edict) (p : poly) : poly := fold_left (fun p kv => sub_exp (fst kv) (snd kv) p) d p.
(** [expr.subs(dictionary of functions)], pkfcas.py 516, 544, 613, 644 *)
Definition sub_fns (d : list (fn * poly)) (p : poly) : poly := fold_left (fun p kv => sub_fn (fst kv) (snd kv) p) d p.
(** [rhs.subs(trends)], pkfcas.py 239, 289-290, 380, 426, 538, 638 *)
Definition sub_trends (d : list (fn * poly)) (p : poly) : poly := fold_left (fun p kv => sub_trend (fst kv) (snd kv) p) d p.

(** the factors of an average, sorted *)
Definition jkey (l : list jet) : list jet := random_jets (mmul (map (fun j => AJet (fst j) (snd j)) l) []).

(** an equation Eq(lhs, rhs) of the systems of pkfcas.py 80-658 *)
Definition pequation := (poly * poly)%type.

(** ** UnivariateTerm.is_univariate, 858-903: the function and the degree.  The identity tests
    [term is Expectation(..)] are equality tests (sympy's cache returns the same object). *)
Definition is_univariate (l : list jet) : option (fn * nat) :=
  let derivatives := nodup jet_eq_dec (filter (fun j => match snd j with [] => false | _ => true end) l) in
  let functions := nodup fn_eq_dec (map fst derivatives) in
  match functions, derivatives with
  | [f], [d] =>
      if jets_eq_dec l (jkey [(f, []); d]) then Some (f, List.length (snd d))
      else if jets_eq_dec l (jkey [d; d]) then Some (f, 2 * List.length (snd d))
      else None
  | [f], [d1; d2] =>
      if jets_eq_dec l (jkey [d1; d2]) then Some (f, List.length (snd d1) + List.length (snd d2))
      else None
  | _, _ => None
  end.

(** expr.atoms(Expectation) *)
Definition exp_atoms (p : poly) : list (list jet) :=
  nodup jets_eq_dec (flat_map (fun t => flat_map (fun a => match a with AExp _ l => [l] | _ => [] end) (snd t)) p).

(** check_univariate, 762-778: for each function, the degrees of its univariate terms *)
Definition check_univariate (p : poly) : dict fn (list nat) :=
  fold_left (fun d l => match is_univariate l with
                        | None => d
                        | Some (f, n) => match dget fn_eq_dec f d with
                                         | Some ns => dset fn_eq_dec f (ns ++ [n]) d
                                         | None => dset fn_eq_dec f [n] d
                                         end
                        end) (exp_atoms p) [].

(** word of a multi-index *)
Definition word_of (coords : list string) (o : mi) : word :=
  fold_right winsert [] (List.concat (map (fun ca => repeat (fst ca) (Z.to_nat (snd ca))) (combine coords o))).

Section PKF.
  (** orders chosen by Python and sympy: generations of multi-indices, the dictionaries of the
      substitution tree and of the closures, the functions of [check_univariate] *)
  Variable enum : list mi -> list mi.
  Variable enumD : tdict -> tdict.
  Variable enumC : edict -> edict.
  Variable enumF : list (fn * poly) -> list (fn * poly).
  Variable enumU : list fn -> list fn.
  Variable coords : list string.              (* spatial coordinates *)
  Variable eqs : list poly.                   (* D_t u_i = nth i eqs *)

  Definition nfields := List.length eqs.
  (** self.fields, pkfcas.py 48-50, by positions *)
  Definition fields := seq 0 nfields.
  (** the number of spatial coordinates, pkfcas.py 926 *)
  Definition dim := List.length coords.
  (** a spatial coordinate, pkfcas.py 926 *)
  Definition coord (a : nat) : string := nth a coords "".

  (** a function as an expression (for the expanded expressions of pkfcas.py 80-823) *)
  Definition pfn (f : fn) : poly := pjet f [].
  (** metric_func, 1000-1006 *)
  Definition metric (i a b : nat) : fn := if Nat.ltb b a then FMet i b a else FMet i a b.

  (** ** Field.internal_closure, 965-998 *)
  Definition metric_of (i : nat) (xi xj : string) : res fn :=
    a <- cindex xi coords ;; b <- cindex xj coords ;; Ok (metric i a b).
  (** skewness_subs, 916-918 *)
  Definition skewness_subs (i : nat) (xk xi xj : string) : res poly :=
    gkj <- metric_of i xk xj ;; gik <- metric_of i xi xk ;; gij <- metric_of i xi xj ;;
    Ok (pscale (-1 # 2) (padd (pjet gkj [xi]) (padd (pjet gik [xj]) (pjet gij [xk])))).
  (** skewness_def( *partial_order.as_sequence ): three arguments, otherwise a TypeError *)
  Definition skewness_entry (i : nat) (p : pod) : res (list jet * poly) :=
    match as_sequence p with
    | [k; a; b] => v <- skewness_subs i k a b ;;
                   Ok (jkey [(FEps i, []); (FEps i, winsert k (winsert a (winsert b [])))], v)
    | _ => Err TypeError
    end.
  (** the pairs of indices a <= b, pkfcas.py 410-413, 983 and util.py 55-61 *)
  Definition upper (n : nat) : list (nat * nat) := flat_map (fun a => map (pair a) (seq a (n - a))) (seq 0 n).
  (** pkfcas.py 965-998 [Field.internal_closure] *)
  Definition field_closure (i : nat) : res edict :=
    let closure :=
      [(jkey [(FErr i, [])], []);
       (jkey [(FErr i, []); (FErr i, [])], pfn (FVar i));
       (jkey [(FEps i, [])], []);
       (jkey [(FEps i, []); (FEps i, [])], pone)] ++
      map (fun c => (jkey [(FEps i, []); (FEps i, [c])], [])) coords ++
      map (fun ab => (jkey [(FEps i, []); (FEps i, winsert (coord (fst ab)) [coord (snd ab)])],
                      pscale (-1) (pfn (metric i (fst ab) (snd ab))))) (upper dim) in
    ps <- all_of_degree enum coords 3 ;;
    sk <- mapM (skewness_entry i) ps ;;
    Ok (closure ++ sk).

  (** multivariate_couples, 338-342 *)
  Definition couples : list (nat * nat) :=
    flat_map (fun i => flat_map (fun j => if Nat.ltb i j then [(i, j)] else []) fields) fields.

  (** internal_closure, 689-719 *)
  Definition dupdate (d e : edict) : edict := fold_left (fun d kv => dset jets_eq_dec (fst kv) (snd kv) d) e d.
  (** pkfcas.py 689-719 *)
  Definition internal_closure : res edict :=
    ds <- mapM field_closure fields ;;
    let d := fold_left dupdate ds [] in
    Ok (fold_left (fun d ij =>
          let '(i, j) := ij in
          let d := dset jets_eq_dec (jkey [(FErr i, []); (FErr j, [])]) (pfn (FCov i j)) d in
          dset jets_eq_dec (jkey [(FEps i, []); (FEps j, [])]) (pmulm 1 [AIsig i; AIsig j] (pfn (FCov i j))) d)
        couples d).

  (** ** _compute_reynolds_system, 80-129 *)
  Definition subs_reynolds (p : poly) : poly :=
    sub_fns (enumF (map (fun i => (FField i, padd (pfn (FMean i)) (pmulm 1 [ASmall] (pfn (FErr i))))) fields)) p.
  (** the power of the symbol epsilon (pkfcas.py 89) in a term, pkfcas.py 112, 125 *)
  Definition small_degree (m : mono) : nat := List.length (filter (fun a => if atom_eq_dec a ASmall then true else false) m).
  (** series(epsilon,0,3).removeO() of a polynomial *)
  Definition taylor2 (p : poly) : poly := filter (fun t => Nat.ltb (small_degree (snd t)) 3) p.
  (** subs(epsilon, 1) *)
  Definition small_one (p : poly) : poly :=
    psum (map (fun t => pins (fst t, filter (fun a => if atom_eq_dec a ASmall then false else true) (snd t)) []) p).
  (** subs(epsilon*epsilon, 0) of a polynomial of degree at most 2 *)
  Definition square_zero (p : poly) : poly := filter (fun t => negb (Nat.eqb (small_degree (snd t)) 2)) p.

  (** pkfcas.py 100-119, one equation *)
  Definition reynolds (i : nat) : pequation :=
    (subs_reynolds (pjet (FField i) ["t"]), taylor2 (subs_reynolds (nth i eqs []))).
  (** pkfcas.py 122 *)
  Definition second_order_reynolds : list pequation :=
    map (fun i => let q := reynolds i in (small_one (fst q), small_one (snd q))) fields.
  (** pkfcas.py 125-126 *)
  Definition first_order_reynolds : list pequation :=
    map (fun i => let q := reynolds i in (small_one (square_zero (fst q)), small_one (square_zero (snd q)))) fields.

  (** mfield.error -> sqrt(mfield.variance) * mfield.epsilon *)
  Definition subs_error : list (fn * poly) := map (fun i => (FErr i, pmulm 1 [ASig i] (pfn (FEps i)))) fields.

  (** a substitution on both sides of an equation, util.py 133-143 *)
  Definition on_eq (f : poly -> poly) (q : pequation) : pequation := (f (fst q), f (snd q)).

  (** expectation_system, 152-175 *)
  Definition expectation_system : res (list pequation) :=
    cl <- internal_closure ;;
    Ok (map (fun q => on_eq (sub_exps (enumC cl)) (on_eq (sub_fns (enumF subs_error)) (on_eq expect q)))
            second_order_reynolds).

  (** tl_expectation_system, 178-191 *)
  Definition tl_expectation_system : res (list pequation) :=
    cl <- internal_closure ;;
    Ok (map (fun q => on_eq (sub_exps (enumC cl)) (on_eq expect q)) first_order_reynolds).

  (** error_system, 194-210 *)
  Definition error_system : res (list pequation) :=
    tl <- tl_expectation_system ;;
    Ok (map (fun qr => (psub (fst (fst qr)) (fst (snd qr)), psub (snd (fst qr)) (snd (snd qr))))
            (combine first_order_reynolds tl)).

  (** {equation.args[0]: equation.args[1]}: the keys are the left-hand sides, which are time
      derivatives of one function (proved, not assumed: another left-hand side would be an
      error value) *)
  Definition trend_key (p : poly) : res fn :=
    match p with
    | [(c, [AJet f w])] => if list_eq_dec string_dec w ["t"] then if Qeq_bool c 1 then Ok f else Err NotImplementedError
                           else Err NotImplementedError
    | _ => Err NotImplementedError
    end.
  (** {equation.args[0]: equation.args[1]}, pkfcas.py 220, 269-274, 359, 402-404, 504-507, 591-594 *)
  Definition trend_dict (s : list pequation) : res (list (fn * poly)) :=
    mapM (fun q => f <- trend_key (fst q) ;; Ok (f, snd q)) s.

  (** ** the substitution tree as polynomials *)
  Definition tree_key (i : nat) (k : mi * mi) : list jet :=
    jkey [(FEps i, word_of coords (fst k)); (FEps i, word_of coords (snd k))].
  (** a value of the substitution tree (TreeModel; pkfcas.py 1192-1270) as an expression *)
  Definition tree_value (i : nat) (e : texp) : poly :=
    psum (map (fun t => let '(c, ds, k) := t in
                        pscale (inject_Z c) (pderivs ds [(1%Q, [AExp [] (tree_key i k)])])) e).
  (** mfield.subs_tree(max_degree), closed by the internal closure: 815-816 *)
  Definition closed_tree (cl : edict) (i degree : nat) : res edict :=
    d <- fst (tree_call enum enumD true coords tree_init (Some degree)) ;;
    Ok (map (fun kv => (tree_key i (fst kv), sub_exps (enumC cl) (tree_value i (snd kv)))) d).

  (** _apply_internal_closure, 791-823.  A univariate term of another function: its entry is
      removed from the dictionary while it is iterated over, a RuntimeError (802-804). *)
  Definition field_of (f : fn) : option nat :=
    match f with FEps i => if Nat.ltb i nfields then Some i else None | _ => None end.
  (** pkfcas.py 791-823 *)
  Definition apply_internal_closure (p : poly) : res poly :=
    cl <- internal_closure ;;
    let univariates := check_univariate p in
    if existsb (fun f => match field_of f with None => true | Some _ => false end) (dkeys univariates)
    then Err RuntimeError
    else
      p <- foldM (fun p f =>
             match field_of f with
             | None => Err KeyError
             | Some i =>
                 ns <- dgetE fn_eq_dec f univariates ;;
                 t <- closed_tree cl i (fold_right Nat.max 0 ns) ;;
                 Ok (sub_exps (enumC t) p)
             end) p (enumU (dkeys univariates)) ;;
      Ok (sub_exps (enumC cl) p).

  (** variance_system, 213-253 *)
  Definition variance_equation (trends : list (fn * poly)) (i : nat) : res pequation :=
    let rhs := expect (pderiv "t" (pmul (pfn (FErr i)) (pfn (FErr i)))) in
    let rhs := sub_trends (enumF trends) rhs in
    let rhs := sub_fns (enumF subs_error) rhs in
    rhs <- apply_internal_closure rhs ;;
    Ok (pjet (FVar i) ["t"], rhs).
  (** pkfcas.py 213-253 *)
  Definition variance_system : res (list pequation) :=
    es <- error_system ;; trends <- trend_dict es ;; mapM (variance_equation trends) fields.

  (** epsilon_system, 256-299 *)
  Definition epsilon_equation (etrends vtrends : list (fn * poly)) (i : nat) : pequation :=
    let rhs := pderiv "t" (pmulm 1 [AIsig i] (pfn (FErr i))) in
    let rhs := sub_trends (enumF etrends) rhs in
    let rhs := sub_trends (enumF vtrends) rhs in
    (pjet (FEps i) ["t"], sub_fns (enumF subs_error) rhs).
  (** pkfcas.py 256-299 *)
  Definition epsilon_system : res (list pequation) :=
    es <- error_system ;; etrends <- trend_dict es ;;
    vs <- variance_system ;; vtrends <- trend_dict vs ;;
    Ok (map (epsilon_equation etrends vtrends) fields).

  (** cross_covariance_system, 346-390; None for a single field *)
  Definition covariance_equation (trends : list (fn * poly)) (ij : nat * nat) : res pequation :=
    let '(i, j) := ij in
    cl <- internal_closure ;;
    V12 <- dgetE jets_eq_dec (jkey [(FErr i, []); (FErr j, [])]) cl ;;
    let rhs := sub_trends (enumF trends) (expect (pderiv "t" (pmul (pfn (FErr i)) (pfn (FErr j))))) in
    let rhs := sub_fns (enumF subs_error) rhs in
    rhs <- apply_internal_closure rhs ;;
    Ok (pderiv "t" V12, rhs).
  (** pkfcas.py 346-390 *)
  Definition cross_covariance_system : res (option (list pequation)) :=
    if Nat.eqb nfields 1 then Ok None
    else es <- error_system ;; trends <- trend_dict es ;;
         l <- mapM (covariance_equation trends) couples ;; Ok (Some l).

  (** metric_system, 393-437 *)
  Definition metric_equation (trends : list (fn * poly)) (iab : nat * (nat * nat)) : res pequation :=
    let '(i, (a, b)) := iab in
    let rhs := expect (pderiv "t" (pmul (pjet (FEps i) [coord a]) (pjet (FEps i) [coord b]))) in
    let rhs := sub_trends (enumF trends) rhs in
    rhs <- apply_internal_closure rhs ;;
    Ok (pjet (metric i a b) ["t"], rhs).
  (** pkfcas.py 408-413: the entries of the metrics *)
  Definition metric_indices : list (nat * (nat * nat)) := flat_map (fun i => map (pair i) (upper dim)) fields.
  (** pkfcas.py 393-437 *)
  Definition metric_system : res (list pequation) :=
    es <- epsilon_system ;; trends <- trend_dict es ;; mapM (metric_equation trends) metric_indices.

  (** ** _apply_closure, 780-789 (and 459-465): an external closure gives values to averages *)
  Variable closure : edict.
  (** pkfcas.py 780-789 *)
  Definition apply_closure (s : list pequation) : list pequation :=
    match closure with [] => s | _ => map (on_eq (sub_exps (enumC closure))) s end.

  (** _clean_system_from_expectation, 674-686 *)
  Definition clean (s : list pequation) : list pequation :=
    map (on_eq (sub_fns (enumF (map (fun i => (FMean i, pfn (FField i))) fields)))) s.

  (** [if system is None: continue], pkfcas.py 456-457, 606-607 *)
  Definition optional (o : option (list pequation)) : list pequation := match o with None => [] | Some s => s end.

  (** in_metric, 440-472 *)
  Definition in_metric : res (list pequation) :=
    e <- expectation_system ;; v <- variance_system ;; c <- cross_covariance_system ;; m <- metric_system ;;
    Ok (clean (apply_closure e) ++ clean (apply_closure v) ++
        clean (apply_closure (optional c)) ++ clean (apply_closure m)).

  (** unclosed_terms, 826-837.  Averages of the prognostic functions do not occur (they are
      [FMean], cleaned). *)
  Definition unclosed_terms : res (list (list jet)) :=
    s <- in_metric ;; Ok (nodup jets_eq_dec (flat_map (fun q => exp_atoms (snd q)) s)).

  (** in_diffusion, 475-558 and in_aspect, 561-658 *)
  Section Tensor.
    Variables (tensor inv : nat -> nat -> nat -> fn) (scale factor : Q).
    (** index_code puts the indices in order, pkfcas.py 1000-1003 *)
    Definition sym (f : nat -> nat -> nat -> fn) (i a b : nat) : fn := if Nat.ltb b a then f i b a else f i a b.
    (** pkfcas.py 495-501 and 581-588 *)
    Definition metric_to_tensor : list (fn * poly) :=
      flat_map (fun i => map (fun ab => (metric i (fst ab) (snd ab), pscale scale (pfn (inv i (fst ab) (snd ab)))))
                             (upper dim)) fields.
    (** the entry (a,b) of factor * tensor * Derivative(metric,t) * tensor *)
    Definition tensor_trend (i a b : nat) : poly :=
      pscale factor (psum (flat_map (fun c => map (fun d =>
          pmul (pfn (sym tensor i a c)) (pmul (pjet (metric i c d) ["t"]) (pfn (sym tensor i d b))))
        (seq 0 dim)) (seq 0 dim))).
    (** pkfcas.py 536-551 and 636-651: one entry of the tensor *)
    Definition tensor_equation (trends : list (fn * poly)) (iab : nat * (nat * nat)) : pequation :=
      let '(i, (a, b)) := iab in
      let rhs := sub_trends (enumF trends) (tensor_trend i a b) in
      (pjet (sym tensor i a b) ["t"], sub_fns (enumF metric_to_tensor) rhs).
    (** pkfcas.py 488-556 and 576-656, which differ by the tensor, two numbers and the cross-covariances *)
    Definition in_tensor (with_covariance : bool) : res (list pequation) :=
      m <- metric_system ;; trends <- trend_dict (apply_closure m) ;;
      e <- expectation_system ;; v <- variance_system ;;
      c <- (if with_covariance then cross_covariance_system else Ok None) ;;
      Ok (clean (map (on_eq (sub_fns (enumF metric_to_tensor)))
                   (apply_closure e ++ apply_closure v ++ apply_closure (optional c)) ++
                 map (tensor_equation trends) metric_indices)).
  End Tensor.
  (** pkfcas.py 475-558 *)
  Definition in_diffusion : res (list pequation) := in_tensor FDif FInvDif (1 # 2) (-2) false.
  (** pkfcas.py 561-658 *)
  Definition in_aspect : res (list pequation) := in_tensor FAsp FInvAsp 1 (-1) true.
End PKF.
