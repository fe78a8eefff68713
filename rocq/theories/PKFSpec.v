(** Meaning of the expressions of PKFModel in an algebra of random fields (Reynolds.v), and the
    reference notions: the Taylor coefficients of a dynamics around the mean, the statistics of
    the errors.  This is specification, not code of /repo. *)
From Coq Require Import List Arith Ring QArith Qcanon Bool String Permutation.
From Verif Require Import PyBase TreeModel PartialOrderModel Reynolds PKFModel.
Import ListNotations.
Close Scope Q_scope.
Close Scope Qc_scope.
Open Scope nat_scope.
Open Scope string_scope.
Open Scope list_scope.

(** ** values *)
Record env (A : RAlg) := mkEnv {
  e_fn : fn -> A; e_sig : nat -> A; e_isig : nat -> A; e_cst : nat -> A; e_small : A }.
Arguments mkEnv {A}. Arguments e_fn {A}. Arguments e_sig {A}. Arguments e_isig {A}. Arguments e_cst {A}.
Arguments e_small {A}.

Section Values.
  Context {A : RAlg} (E : env A).
  Definition jv (j : jet) : A := dds (snd j) (e_fn E (fst j)).
  Definition jprod (l : list jet) : A := fold_right (fun j p => (jv j * p)%ra) 1%ra l.
  Definition av (a : atom) : A :=
    match a with
    | AJet f w => dds w (e_fn E f)
    | AExp w l => dds w (EE (jprod l))
    | ACst k => e_cst E k
    | ASmall => e_small E
    | ASig i => e_sig E i
    | AIsig i => e_isig E i
    end.
  Definition mv (m : mono) : A := fold_right (fun a p => (av a * p)%ra) 1%ra m.
  Definition pv (p : poly) : A := fold_right (fun t s => (cq (Q2Qc (fst t)) * mv (snd t) + s)%ra) 0%ra p.
  Definition holds (q : pequation) : Prop := pv (fst q) = pv (snd q).
End Values.

(** ** the equations a user writes: polynomials in the prognostic functions, in other functions,
    in their derivatives and in constants *)
Definition user_atom (n : nat) (a : atom) : Prop :=
  match a with
  | AJet (FField i) _ => i < n
  | AJet (FExt _ _) _ => True
  | ACst _ => True
  | _ => False
  end.
Definition user_system (eqs : list poly) : Prop :=
  forall p c m a, In p eqs -> In (c, m) p -> In a m -> user_atom (List.length eqs) a.

(** ** Taylor coefficients: values a0 + a1 h + a2 h^2 modulo h^3 *)
Section Taylor.
  Context {A : RAlg}.
  Open Scope ra_scope.
  Definition tri := (A * A * A)%type.
  Definition t_add (a b : tri) : tri :=
    let '(a0, a1, a2) := a in let '(b0, b1, b2) := b in (a0 + b0, a1 + b1, a2 + b2).
  Definition t_mul (a b : tri) : tri :=
    let '(a0, a1, a2) := a in let '(b0, b1, b2) := b in (a0 * b0, a0 * b1 + a1 * b0, a0 * b2 + a1 * b1 + a2 * b0).
  Definition t_const (a : A) : tri := (a, 0, 0).

  (** the expansion of a user's right-hand side at [mean + h * error] *)
  Variables (mean error : nat -> A) (ext : nat -> list string -> A) (cst : nat -> A).
  Definition t_atom (a : atom) : tri :=
    match a with
    | AJet (FField i) w => (dds w (mean i), dds w (error i), 0)
    | AJet (FExt k deps) w => t_const (dds w (ext k deps))
    | ACst k => t_const (cst k)
    | _ => t_const 0
    end.
  Definition t_mono (m : mono) : tri := fold_right (fun a p => t_mul (t_atom a) p) (t_const 1) m.
  Definition t_poly (p : poly) : tri :=
    fold_right (fun t s => t_add (t_mul (t_const (cq (Q2Qc (fst t)))) (t_mono (snd t))) s) (t_const 0) p.
End Taylor.

(** ** random fields and their statistics *)
Section Statistics.
  Context {A : RAlg}.
  Open Scope ra_scope.

  (** [E] assigns to the functions of the parametric dynamics the statistics of the errors
      [e_fn E (FErr i)], for the [n] prognostic functions *)
  Record statistics (coords : list string) (n : nat) (E : env A) : Prop := {
    (* the quantities of the parametric dynamics are deterministic *)
    st_det : forall f, is_random f = false -> det (e_fn E f);
    st_cst : forall k, det (e_cst E k);
    st_cst_const : forall k c, dd c (e_cst E k) = 0;
    st_ext : forall k deps c, ~ In c deps -> dd c (e_fn E (FExt k deps)) = 0;
    (* errors are centred, sigma is the standard deviation, epsilon the normalised error *)
    st_centred : forall i, EE (e_fn E (FErr i)) = 0;
    st_variance : forall i, e_fn E (FVar i) = EE (e_fn E (FErr i) * e_fn E (FErr i));
    st_sig : forall i, e_sig E i * e_sig E i = e_fn E (FVar i);
    st_sig_det : forall i, det (e_sig E i);
    st_isig : forall i, e_sig E i * e_isig E i = 1;
    st_eps : forall i, e_fn E (FEps i) = e_isig E i * e_fn E (FErr i);
    (* metric tensor and cross covariances *)
    st_metric : forall i a b, (i < n)%nat -> (a <= b)%nat -> (b < List.length coords)%nat ->
      e_fn E (FMet i a b) = EE (dd (nth a coords ""%string) (e_fn E (FEps i)) * dd (nth b coords ""%string) (e_fn E (FEps i)));
    st_cov : forall i j, (i < j)%nat -> (j < n)%nat -> e_fn E (FCov i j) = EE (e_fn E (FErr i) * e_fn E (FErr j));
    (* the mean fields, under both their names; the formal parameter is 1 *)
    st_mean : forall i, e_fn E (FMean i) = e_fn E (FField i);
    st_small : e_small E = 1 }.

  Definition expansion (E : env A) : poly -> tri :=
    t_poly (fun i => e_fn E (FField i)) (fun i => e_fn E (FErr i)) (fun k d => e_fn E (FExt k d)) (e_cst E).
  Definition taylor0 (E : env A) (p : poly) : A := fst (fst (expansion E p)).
  Definition taylor1 (E : env A) (p : poly) : A := snd (fst (expansion E p)).
  Definition taylor2_coef (E : env A) (p : poly) : A := snd (expansion E p).

  (** the errors evolve by the tangent-linear dynamics *)
  Definition error_dynamics (eqs : list poly) (E : env A) : Prop :=
    forall i p, nth_error eqs i = Some p -> dd "t" (e_fn E (FErr i)) = taylor1 E p.

  (** a closure gives true values *)
  Definition closure_holds (E : env A) (closure : edict) : Prop :=
    forall l v, In (l, v) closure -> EE (jprod E l) = pv E v.
End Statistics.

(** ** matrices of fields *)
Section Matrices.
  Context {A : RAlg}.
  Open Scope ra_scope.
  Definition asum (l : list A) : A := fold_right cadd 0 l.
  Definition matrix := (nat -> nat -> A)%type.
  Definition mat_mul (d : nat) (x y : matrix) : matrix := fun a b => asum (map (fun k => x a k * y k b) (seq 0 d)).
  Definition scalar_matrix (q : Q) : matrix := fun a b => if Nat.eqb a b then cq (Q2Qc q) else 0.
  Definition mat_eq (d : nat) (x y : matrix) : Prop := forall a b, (a < d)%nat -> (b < d)%nat -> x a b = y a b.

  (** [x] is [q] times the inverse of [y] *)
  Definition inverse_upto (d : nat) (q : Q) (x y : matrix) : Prop :=
    mat_eq d (mat_mul d x y) (scalar_matrix q) /\ mat_eq d (mat_mul d y x) (scalar_matrix q).

  (** a symmetric matrix of functions, stored as its upper triangle *)
  Definition tensor_matrix (E : env A) (f : nat -> nat -> nat -> fn) (i : nat) : matrix :=
    fun a b => e_fn E (if Nat.ltb b a then f i b a else f i a b).

  (** the mean evolves by the average of the second-order dynamics *)
  Definition mean_dynamics (eqs : list poly) (E : env A) : Prop :=
    forall i p, nth_error eqs i = Some p ->
      dd "t" (e_fn E (FField i)) = EE (taylor0 E p + taylor1 E p + taylor2_coef E p).

  (** diffusion tensor: nu g = I/2; aspect tensor: s g = I; the functions standing for the entries
      of the inverses are these entries *)
  Definition tensor_is (coords : list string) (n : nat) (E : env A) (f inv : nat -> nat -> nat -> fn) (q : Q) : Prop :=
    forall i, (i < n)%nat ->
      mat_eq (List.length coords) (mat_mul (List.length coords) (tensor_matrix E f i) (tensor_matrix E FMet i)) (scalar_matrix q)
      /\ mat_eq (List.length coords) (mat_mul (List.length coords) (tensor_matrix E f i) (tensor_matrix E inv i)) (scalar_matrix 1).
End Matrices.

(** ** the functions of the parametric dynamics of [n] fields; [tens] tells which tensors other than
    the metric are used *)
Definition parameter (tens : fn -> Prop) (coords : list string) (n : nat) (f : fn) : Prop :=
  match f with
  | FField i | FMean i | FErr i | FEps i | FVar i => i < n
  | FMet i a b => i < n /\ a <= b /\ b < List.length coords
  | FDif i a b | FAsp i a b | FInvDif i a b | FInvAsp i a b => i < n /\ a <= b /\ b < List.length coords /\ tens f
  | FCov i j => i < j /\ j < n
  | FStd _ => False
  | FExt _ _ => True
  end.

(** [only out inn p]: the functions of [p] outside averages satisfy [out], those inside [inn];
    the standard deviations are those of the [n] fields *)
Definition only (n : nat) (out inn : fn -> Prop) (p : poly) : Prop :=
  forall c m a, In (c, m) p -> In a m ->
    match a with
    | AJet f _ => out f
    | AExp _ l => forall j, In j l -> inn (fst j)
    | ASig i | AIsig i => i < n
    | ACst _ | ASmall => True
    end.
Definition normalised_error (n : nat) (f : fn) : Prop := exists i, i < n /\ f = FEps i.

(** left-hand sides: time derivatives of functions *)
Definition time_derivative (f : fn) : poly := [(1%Q, [AJet f ["t"]])].

(** the orders chosen by Python and sympy are rearrangements *)
Definition rearrangements (enum : list mi -> list mi) (enumD : tdict -> tdict) (enumC : edict -> edict)
    (enumF : list (fn * poly) -> list (fn * poly)) (enumU : list fn -> list fn) : Prop :=
  (forall l, Permutation (enum l) l) /\ (forall l, Permutation (enumD l) l) /\ (forall l, Permutation (enumC l) l)
  /\ (forall l, Permutation (enumF l) l) /\ (forall l, Permutation (enumU l) l).

Definition deterministic_parameter (tens : fn -> Prop) (coords : list string) (n : nat) (f : fn) : Prop :=
  parameter tens coords n f /\ is_random f = false.
Definition no_tensor (f : fn) : Prop := False.
Definition diffusion_tensor (f : fn) : Prop := match f with FDif _ _ _ | FInvDif _ _ _ => True | _ => False end.
Definition aspect_tensor (f : fn) : Prop := match f with FAsp _ _ _ | FInvAsp _ _ _ => True | _ => False end.

(** [l] is the average of a product of two derivatives of one function, not both of order 0 *)
Definition univariate (l : list jet) (f : fn) (degree : nat) : Prop :=
  exists w w', l = jkey [(f, w); (f, w')] /\ is_random f = true /\ degree = List.length w + List.length w' /\ 0 < degree.

(** the functions of an expression that is averaged are random *)
Definition averages_random (p : poly) : Prop :=
  forall c m w l j, In (c, m) p -> In (AExp w l) m -> In j l -> is_random (fst j) = true.

(** [l] is averaged somewhere in [p] *)
Definition averaged_in (l : list jet) (p : poly) : Prop := exists c m w, In (c, m) p /\ In (AExp w l) m.

(** the parameters of the dynamics written with the tensor [f]: mean fields, variances, cross
    covariances when [cov], tensor entries *)
Definition described (coords : list string) (n : nat) (cov : bool) (f : nat -> nat -> nat -> fn) (g : fn) : Prop :=
  (exists i, i < n /\ g = FField i) \/ (exists i, i < n /\ g = FVar i)
  \/ (cov = true /\ exists i j, i < j /\ j < n /\ g = FCov i j)
  \/ (exists i a b, i < n /\ a <= b /\ b < List.length coords /\ g = f i a b).

(** the fields moved from the mean by [s] times the error *)
Definition moved {A : RAlg} (E : env A) (s : A) : env A :=
  mkEnv (fun f => match f with FField i => (e_fn E (FField i) + s * e_fn E (FErr i))%ra | _ => e_fn E f end)
        (e_sig E) (e_isig E) (e_cst E) (e_small E).
(** the errors replaced *)
Definition with_errors {A : RAlg} (E : env A) (e : nat -> A) : env A :=
  mkEnv (fun f => match f with FErr i => e i | _ => e_fn E f end) (e_sig E) (e_isig E) (e_cst E) (e_small E).
Definition user_poly (n : nat) (p : poly) : Prop := forall c m a, In (c, m) p -> In a m -> user_atom n a.

Definition external (f : fn) : Prop := exists k deps, f = FExt k deps.

(** [sys] has one equation for the time derivative of each of [fs], its right-hand sides are
    written with deterministic parameters and averages of normalised errors, and it is satisfied
    by every solution of the tangent-linear dynamics of the errors *)
Definition exact_system (coords : list string) (eqs : list poly) (fs : list fn) (sys : list pequation) : Prop :=
  map fst sys = map time_derivative fs
  /\ (forall q, In q sys -> only (List.length eqs) (deterministic_parameter no_tensor coords (List.length eqs))
        (normalised_error (List.length eqs)) (snd q))
  /\ forall (A : RAlg) (E : env A), statistics coords (List.length eqs) E -> error_dynamics eqs E ->
       forall q, In q sys -> holds E q.
