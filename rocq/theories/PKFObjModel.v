(** Objects SymbolicPKF with their caches (src/sympkf/symbolic/pkfcas.py, 41-837): what PKFModel
    computes, as the properties of an object that remembers its results, and the dictionaries of
    closures, which several objects may share.
    Not modelled: std_system, the lists returned (a caller who changes them changes the caches). *)
From Coq Require Import List Arith ZArith QArith Bool String.
From Verif Require Import PyBase PartialOrderModel TreeModel PKFModel.
Import ListNotations.
Close Scope Q_scope.
Close Scope Z_scope.
Open Scope nat_scope.
Open Scope string_scope.
Open Scope list_scope.

Notation psystem := (list pequation).

(** Field: the tree (960) and the closure (962) it remembers *)
Record fstate := mkF { f_tree : tree; f_closure : option edict }.
(** Field after its constructor, pkfcas.py 960-962 *)
Definition f_init : fstate := mkF tree_init None.

(** 51-72 *)
Record pstate := mkS {
  s_reynolds : option (psystem * psystem);     (* _first_order_.., _second_order_reynolds_system: set together, 128-129 *)
  s_expectation : option psystem; s_tl : option psystem; s_error : option psystem; s_variance : option psystem;
  s_epsilon : option psystem; s_covariance : option psystem; s_metric : option psystem;
  s_in_metric : option psystem; s_in_diffusion : option psystem; s_in_aspect : option psystem;
  s_internal : option edict; s_fields : list fstate }.
(** SymbolicPKF after its constructor, pkfcas.py 48-72 *)
Definition s_init (n : nat) : pstate :=
  mkS None None None None None None None None None None None None (repeat f_init n).

(** an assignment to a cached attribute, pkfcas.py 128-129 *)
Definition set_reynolds v s := mkS (Some v) (s_expectation s) (s_tl s) (s_error s) (s_variance s) (s_epsilon s) (s_covariance s) (s_metric s) (s_in_metric s) (s_in_diffusion s) (s_in_aspect s) (s_internal s) (s_fields s).
(** an assignment to a cached attribute, pkfcas.py 173 *)
Definition set_expectation v s := mkS (s_reynolds s) (Some v) (s_tl s) (s_error s) (s_variance s) (s_epsilon s) (s_covariance s) (s_metric s) (s_in_metric s) (s_in_diffusion s) (s_in_aspect s) (s_internal s) (s_fields s).
(** an assignment to a cached attribute, pkfcas.py 189 *)
Definition set_tl v s := mkS (s_reynolds s) (s_expectation s) (Some v) (s_error s) (s_variance s) (s_epsilon s) (s_covariance s) (s_metric s) (s_in_metric s) (s_in_diffusion s) (s_in_aspect s) (s_internal s) (s_fields s).
(** an assignment to a cached attribute, pkfcas.py 208 *)
Definition set_error v s := mkS (s_reynolds s) (s_expectation s) (s_tl s) (Some v) (s_variance s) (s_epsilon s) (s_covariance s) (s_metric s) (s_in_metric s) (s_in_diffusion s) (s_in_aspect s) (s_internal s) (s_fields s).
(** an assignment to a cached attribute, pkfcas.py 251 *)
Definition set_variance v s := mkS (s_reynolds s) (s_expectation s) (s_tl s) (s_error s) (Some v) (s_epsilon s) (s_covariance s) (s_metric s) (s_in_metric s) (s_in_diffusion s) (s_in_aspect s) (s_internal s) (s_fields s).
(** an assignment to a cached attribute, pkfcas.py 297 *)
Definition set_epsilon v s := mkS (s_reynolds s) (s_expectation s) (s_tl s) (s_error s) (s_variance s) (Some v) (s_covariance s) (s_metric s) (s_in_metric s) (s_in_diffusion s) (s_in_aspect s) (s_internal s) (s_fields s).
(** an assignment to a cached attribute, pkfcas.py 367, 388 *)
Definition set_covariance v s := mkS (s_reynolds s) (s_expectation s) (s_tl s) (s_error s) (s_variance s) (s_epsilon s) (Some v) (s_metric s) (s_in_metric s) (s_in_diffusion s) (s_in_aspect s) (s_internal s) (s_fields s).
(** an assignment to a cached attribute, pkfcas.py 436 *)
Definition set_metric v s := mkS (s_reynolds s) (s_expectation s) (s_tl s) (s_error s) (s_variance s) (s_epsilon s) (s_covariance s) (Some v) (s_in_metric s) (s_in_diffusion s) (s_in_aspect s) (s_internal s) (s_fields s).
(** an assignment to a cached attribute, pkfcas.py 470, 556, 656, 670-672 *)
Definition set_closed im id ia s := mkS (s_reynolds s) (s_expectation s) (s_tl s) (s_error s) (s_variance s) (s_epsilon s) (s_covariance s) (s_metric s) im id ia (s_internal s) (s_fields s).
(** an assignment to a cached attribute, pkfcas.py 692, 696, 716-717 *)
Definition set_internal v s := mkS (s_reynolds s) (s_expectation s) (s_tl s) (s_error s) (s_variance s) (s_epsilon s) (s_covariance s) (s_metric s) (s_in_metric s) (s_in_diffusion s) (s_in_aspect s) (Some v) (s_fields s).
(** an assignment to a cached attribute, pkfcas.py 996, 1209-1211, 1233, 1263-1266 *)
Definition set_field i f s := mkS (s_reynolds s) (s_expectation s) (s_tl s) (s_error s) (s_variance s) (s_epsilon s) (s_covariance s) (s_metric s) (s_in_metric s) (s_in_diffusion s) (s_in_aspect s) (s_internal s) (set_nth i f (s_fields s)).

(** computations on the state of one object; what was stored before an exception stays stored *)
Definition M (A : Type) := pstate -> res A * pstate.
(** a value without effect, in programs with the objects of pkfcas.py 41-837 *)
Definition ret {A} (a : A) : M A := fun s => (Ok a, s).
(** an exception; what was stored stays stored, in programs with the objects of pkfcas.py 41-837 *)
Definition raise {A} (e : exn) : M A := fun s => (Err e, s).
(** a computation without effect, in programs with the objects of pkfcas.py 41-837 *)
Definition lift {A} (r : res A) : M A := fun s => (r, s).
(** one computation after the other, in programs with the objects of pkfcas.py 41-837 *)
Definition bindM {A B} (m : M A) (k : A -> M B) : M B :=
  fun s => let '(r, s) := m s in match r with Ok a => k a s | Err e => (Err e, s) end.
(** self._x = ..: an assignment to an attribute, pkfcas.py 128-656 *)
Definition store (f : pstate -> pstate) : M unit := fun s => (Ok tt, f s).
(** the attribute when it is not None, else the computed value, stored: pkfcas.py 137-149, 155-175, 196-210 and others up to 658 *)
Definition memo {A} (get : pstate -> option A) (set : A -> pstate -> pstate) (m : M A) : M A :=
  fun s => match get s with
           | Some v => (Ok v, s)
           | None => let '(r, s) := m s in match r with Ok v => (Ok v, set v s) | Err e => (Err e, s) end
           end.
(** a list comprehension or loop whose body has effects, in programs with the objects of pkfcas.py 41-837 *)
Fixpoint mapS {A B} (f : A -> M B) (l : list A) : M (list B) :=
  match l with
  | [] => ret []
  | a :: l => bindM (f a) (fun b => bindM (mapS f l) (fun bs => ret (b :: bs)))
  end.
(** a loop that updates a value, in programs with the objects of pkfcas.py 41-837 *)
Fixpoint foldS {A B} (f : B -> A -> M B) (b : B) (l : list A) : M B :=
  match l with [] => ret b | a :: l => bindM (f b a) (fun b => foldS f b l) end.
Declare Scope state_scope.
Notation "x <~ m ;; k" := (bindM m (fun x => k)) (at level 100, m at next level, right associativity) : state_scope.
Open Scope state_scope.

Section Object.
  Variable enum : list mi -> list mi.
  Variable enumD : tdict -> tdict.
  Variable enumC : edict -> edict.
  Variable enumF : list (fn * poly) -> list (fn * poly).
  Variable enumU : list fn -> list fn.
  Variable coords : list string.
  Variable eqs : list poly.

  (** Field.internal_closure, 964-998 *)
  Definition m_field_closure (i : nat) : M edict := fun s =>
    let f := nth i (s_fields s) f_init in
    match f_closure f with
    | Some d => (Ok d, s)
    | None => match field_closure enum coords i with
              | Ok d => (Ok d, set_field i (mkF (f_tree f) (Some d)) s)
              | Err e => (Err e, s)
              end
    end.
  (** internal_closure, 688-719: the dictionary is stored first, then filled *)
  Definition stored (s : pstate) : edict := match s_internal s with Some d => d | None => [] end.
  (** pkfcas.py 688-719 *)
  Definition m_internal : M edict := fun s =>
    match s_internal s with
    | Some d => (Ok d, s)
    | None =>
        (_ <~ store (set_internal []) ;;
         _ <~ mapS (fun i => d <~ m_field_closure i ;; store (fun s => set_internal (dupdate (stored s) d) s)) (fields eqs) ;;
         _ <~ mapS (fun ij => let '(i, j) := ij in
                _ <~ store (fun s => set_internal (dset jets_eq_dec (jkey [(FErr i, []); (FErr j, [])]) (pfn (FCov i j)) (stored s)) s) ;;
                store (fun s => set_internal (dset jets_eq_dec (jkey [(FEps i, []); (FEps j, [])])
                                                   (pmulm 1 [AIsig i; AIsig j] (pfn (FCov i j))) (stored s)) s)) (couples eqs) ;;
         (fun s => (Ok (stored s), s))) s
    end.

  (** 131-149 *)
  Definition m_reynolds : M (psystem * psystem) :=
    memo s_reynolds set_reynolds (ret (first_order_reynolds enumF eqs, second_order_reynolds enumF eqs)).
  (** pkfcas.py 132-140 *)
  Definition m_first : M psystem := r <~ m_reynolds ;; ret (fst r).
  (** pkfcas.py 143-149 *)
  Definition m_second : M psystem := r <~ m_reynolds ;; ret (snd r).

  (** 152-175.  internal_closure is asked for once per equation *)
  Definition m_expectation : M psystem :=
    memo s_expectation set_expectation
      (qs <~ m_second ;;
       mapS (fun q => cl <~ m_internal ;;
               ret (on_eq (sub_exps (enumC cl)) (on_eq (sub_fns (enumF (subs_error eqs))) (on_eq expect q)))) qs).
  (** 177-191 *)
  Definition m_tl : M psystem :=
    memo s_tl set_tl
      (qs <~ m_first ;; mapS (fun q => cl <~ m_internal ;; ret (on_eq (sub_exps (enumC cl)) (on_eq expect q))) qs).
  (** 193-210 *)
  Definition m_error : M psystem :=
    memo s_error set_error
      (fs <~ m_first ;; tl <~ m_tl ;;
       ret (map (fun qr => (psub (fst (fst qr)) (fst (snd qr)), psub (snd (fst qr)) (snd (snd qr)))) (combine fs tl))).

  (** 815: mfield.subs_tree(max_degree) *)
  Definition m_tree (i degree : nat) : M tdict := fun s =>
    let f := nth i (s_fields s) f_init in
    let '(r, t) := tree_call enum enumD true coords (f_tree f) (Some degree) in
    (r, set_field i (mkF t (f_closure f)) s).
  (** 816: the closure is asked for once per entry *)
  Definition m_closed_tree (i degree : nat) : M edict :=
    d <~ m_tree i degree ;;
    mapS (fun kv => cl <~ m_internal ;; ret (tree_key coords i (fst kv), sub_exps (enumC cl) (tree_value coords i (snd kv)))) d.
  (** 791-823 *)
  Definition m_apply (p : poly) : M poly :=
    let univariates := check_univariate p in
    if existsb (fun f => match field_of eqs f with None => true | Some _ => false end) (dkeys univariates)
    then raise RuntimeError
    else
      p <~ foldS (fun p f =>
             match field_of eqs f with
             | None => raise KeyError
             | Some i =>
                 ns <~ lift (dgetE fn_eq_dec f univariates) ;;
                 t <~ m_closed_tree i (fold_right Nat.max 0 ns) ;;
                 ret (sub_exps (enumC t) p)
             end) p (enumU (dkeys univariates)) ;;
      cl <~ m_internal ;; ret (sub_exps (enumC cl) p).

  (** 212-253 *)
  Definition m_variance : M psystem :=
    memo s_variance set_variance
      (es <~ m_error ;; trends <~ lift (trend_dict es) ;;
       mapS (fun i =>
         let rhs := expect (pderiv "t" (pmul (pfn (FErr i)) (pfn (FErr i)))) in
         let rhs := sub_trends (enumF trends) rhs in
         let rhs := sub_fns (enumF (subs_error eqs)) rhs in
         rhs <~ m_apply rhs ;; ret (pjet (FVar i) ["t"], rhs)) (fields eqs)).
  (** 255-299 *)
  Definition m_epsilon : M psystem :=
    memo s_epsilon set_epsilon
      (es <~ m_error ;; etrends <~ lift (trend_dict es) ;;
       vs <~ m_variance ;; vtrends <~ lift (trend_dict vs) ;;
       ret (map (epsilon_equation enumF eqs etrends vtrends) (fields eqs))).
  (** 345-390: the list is stored first, then filled *)
  Definition appended (q : pequation) (s : pstate) : pstate :=
    set_covariance (match s_covariance s with Some l => l | None => [] end ++ [q]) s.
  (** pkfcas.py 345-390 *)
  Definition m_covariance : M (option psystem) := fun s =>
    match s_covariance s with
    | Some v => (Ok (Some v), s)
    | None =>
        if Nat.eqb (nfields eqs) 1 then (Ok None, s)
        else
          (es <~ m_error ;; trends <~ lift (trend_dict es) ;;
           _ <~ store (set_covariance []) ;;
           _ <~ mapS (fun ij => let '(i, j) := ij in
                  cl <~ m_internal ;;
                  V12 <~ lift (dgetE jets_eq_dec (jkey [(FErr i, []); (FErr j, [])]) cl) ;;
                  let rhs := sub_trends (enumF trends) (expect (pderiv "t" (pmul (pfn (FErr i)) (pfn (FErr j))))) in
                  let rhs := sub_fns (enumF (subs_error eqs)) rhs in
                  rhs <~ m_apply rhs ;;
                  store (appended (pderiv "t" V12, rhs))) (couples eqs) ;;
           (fun s => (Ok (s_covariance s), s))) s
    end.
  (** 392-437 *)
  Definition m_metric : M psystem :=
    memo s_metric set_metric
      (es <~ m_epsilon ;; trends <~ lift (trend_dict es) ;;
       mapS (fun iab => let '(i, (a, b)) := iab in
         let rhs := expect (pderiv "t" (pmul (pjet (FEps i) [coord coords a]) (pjet (FEps i) [coord coords b]))) in
         let rhs := sub_trends (enumF trends) rhs in
         rhs <~ m_apply rhs ;; ret (pjet (metric i a b) ["t"], rhs)) (metric_indices coords eqs)).

  (** [closure]: the content of the closure dictionary of the object *)
  Variable closure : edict.
  (** 439-472 *)
  Definition m_in_metric : M psystem :=
    memo s_in_metric (fun v s => set_closed (Some v) (s_in_diffusion s) (s_in_aspect s) s)
      (e <~ m_expectation ;; v <~ m_variance ;; c <~ m_covariance ;; m <~ m_metric ;;
       ret (clean enumF eqs (apply_closure enumC closure e) ++ clean enumF eqs (apply_closure enumC closure v) ++
            clean enumF eqs (apply_closure enumC closure (optional c)) ++ clean enumF eqs (apply_closure enumC closure m))).
  (** 474-658 *)
  Definition m_in_tensor (get : pstate -> option psystem) (set : psystem -> pstate -> pstate)
      (tensor inv : nat -> nat -> nat -> fn) (scale factor : Q) (with_covariance : bool) : M psystem :=
    memo get set
      (m <~ m_metric ;; trends <~ lift (trend_dict (apply_closure enumC closure m)) ;;
       e <~ m_expectation ;; v <~ m_variance ;;
       c <~ (if with_covariance then m_covariance else ret None) ;;
       ret (clean enumF eqs (map (on_eq (sub_fns (enumF (metric_to_tensor coords eqs inv scale))))
                     (apply_closure enumC closure e ++ apply_closure enumC closure v ++ apply_closure enumC closure (optional c)) ++
                   map (tensor_equation enumF coords eqs tensor inv scale factor trends) (metric_indices coords eqs)))).
  (** pkfcas.py 474-558 *)
  Definition m_in_diffusion : M psystem :=
    m_in_tensor s_in_diffusion (fun v s => set_closed (s_in_metric s) (Some v) (s_in_aspect s) s) FDif FInvDif (1 # 2) (-2) false.
  (** pkfcas.py 560-658 *)
  Definition m_in_aspect : M psystem :=
    m_in_tensor s_in_aspect (fun v s => set_closed (s_in_metric s) (s_in_diffusion s) (Some v) s) FAsp FInvAsp 1 (-1) true.
  (** 825-837 *)
  Definition m_unclosed : M (list (list jet)) :=
    s <~ m_in_metric ;; ret (nodup jets_eq_dec (flat_map (fun q => exp_atoms (snd q)) s)).
End Object.

(** ** objects and dictionaries *)
Inductive query :=
| QFirst | QSecond | QExpectation | QTl | QError | QVariance | QEpsilon | QCovariance | QMetric
| QInMetric | QInDiffusion | QInAspect | QInternal | QUnclosed | QClosure.
(** what the properties and methods return, pkfcas.py 131-837 *)
Inductive answer :=
| ASystem (s : option psystem)
| ADict (d : edict)
| ATerms (l : list (list jet))
| ADone.

(** a SymbolicPKF: its system (pkfcas.py 46), the dictionary of its closure, by reference (75), and its attributes (52-72) *)
Record obj := mkObj { o_coords : list string; o_eqs : list poly; o_closure : nat; o_state : pstate }.
(** the dictionaries and objects of a program that uses the class, in programs with the objects of pkfcas.py 41-837 *)
Record world := mkWorld { w_dicts : list edict; w_objs : list obj }.
(** before any statement of the program, in programs with the objects of pkfcas.py 41-837 *)
Definition empty_world : world := mkWorld [] [].
(** the dictionary with this identity, in programs with the objects of pkfcas.py 41-837 *)
Definition dict_at (w : world) (a : nat) : edict := nth a (w_dicts w) [].

(** a statement of a program that uses the class: pkfcas.py 41-78, 131-837 *)
Inductive op :=
| NewDict (d : edict)                                                  (* a dictionary of the caller *)
| SetItem (a : nat) (k : list jet) (v : poly)                          (* the caller changes it *)
| NewPKF (coords : list string) (eqs : list poly) (closure : option nat)  (* SymbolicPKF(pde_system, closure) *)
| SetClosure (o : nat) (d : edict)                                     (* object.set_closure(d) *)
| Ask (o : nat) (q : query).

Section World.
  Variable enum : list mi -> list mi.
  Variable enumD : tdict -> tdict.
  Variable enumC : edict -> edict.
  Variable enumF : list (fn * poly) -> list (fn * poly).
  Variable enumU : list fn -> list fn.

  (** the answer of a property, pkfcas.py 131-837 *)
  Definition as_system {A} (f : A -> answer) (x : res A * pstate) : res answer * pstate :=
    (match fst x with Ok a => Ok (f a) | Err e => Err e end, snd x).
  (** reading a property or calling a method, pkfcas.py 131-837 *)
  Definition ask (coords : list string) (eqs : list poly) (closure : edict) (q : query) (s : pstate) : res answer * pstate :=
    let some := fun v => ASystem (Some v) in
    match q with
    | QFirst => as_system some (m_first enumF eqs s)
    | QSecond => as_system some (m_second enumF eqs s)
    | QExpectation => as_system some (m_expectation enum enumC enumF coords eqs s)
    | QTl => as_system some (m_tl enum enumC enumF coords eqs s)
    | QError => as_system some (m_error enum enumC enumF coords eqs s)
    | QVariance => as_system some (m_variance enum enumD enumC enumF enumU coords eqs s)
    | QEpsilon => as_system some (m_epsilon enum enumD enumC enumF enumU coords eqs s)
    | QCovariance => as_system ASystem (m_covariance enum enumD enumC enumF enumU coords eqs s)
    | QMetric => as_system some (m_metric enum enumD enumC enumF enumU coords eqs s)
    | QInMetric => as_system some (m_in_metric enum enumD enumC enumF enumU coords eqs closure s)
    | QInDiffusion => as_system some (m_in_diffusion enum enumD enumC enumF enumU coords eqs closure s)
    | QInAspect => as_system some (m_in_aspect enum enumD enumC enumF enumU coords eqs closure s)
    | QInternal => as_system ADict (m_internal enum coords eqs s)
    | QUnclosed => as_system ATerms (m_unclosed enum enumD enumC enumF enumU coords eqs closure s)
    | QClosure => (Ok (ADict closure), s)
    end.

  (** 665-672 *)
  Definition reset (s : pstate) : pstate := set_closed None None None s.

  (** one statement, in programs with the objects of pkfcas.py 41-837 *)
  Definition step (w : world) (x : op) : res answer * world :=
    match x with
    | NewDict d => (Ok ADone, mkWorld (w_dicts w ++ [d]) (w_objs w))
    | SetItem a k v => (Ok ADone, mkWorld (set_nth a (dset jets_eq_dec k v (dict_at w a)) (w_dicts w)) (w_objs w))
    | NewPKF coords eqs (Some a) =>
        (Ok ADone, mkWorld (w_dicts w) (w_objs w ++ [mkObj coords eqs a (s_init (List.length eqs))]))
    | NewPKF coords eqs None =>                          (* 75: {} if closure is None else closure *)
        (Ok ADone, mkWorld (w_dicts w ++ [[]]) (w_objs w ++ [mkObj coords eqs (List.length (w_dicts w)) (s_init (List.length eqs))]))
    | SetClosure o d =>
        match nth_error (w_objs w) o with
        | None => (Err NameError, w)
        | Some x => (Ok ADone, mkWorld (set_nth (o_closure x) (dupdate (dict_at w (o_closure x)) d) (w_dicts w))
                                 (set_nth o (mkObj (o_coords x) (o_eqs x) (o_closure x) (reset (o_state x))) (w_objs w)))
        end
    | Ask o q =>
        match nth_error (w_objs w) o with
        | None => (Err NameError, w)
        | Some x => let '(r, s) := ask (o_coords x) (o_eqs x) (dict_at w (o_closure x)) q (o_state x) in
                    (r, mkWorld (w_dicts w) (set_nth o (mkObj (o_coords x) (o_eqs x) (o_closure x) s) (w_objs w)))
        end
    end.
  (** a program, in programs with the objects of pkfcas.py 41-837 *)
  Definition run (w : world) (h : list op) : world := fold_left (fun w x => snd (step w x)) h w.
End World.
