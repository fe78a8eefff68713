(** Staggered finite differences brought back to the regular grid: C104. *)
From Coq Require Import List Arith ZArith QArith Qcanon Bool Lia Permutation.
From Verif Require Import PyBase Scalars FieldFacts FornbergModel FDSpec FDProofs StagModel StagSpec StagProofs StagMain.
Import ListNotations.
Close Scope Qc_scope. Close Scope Q_scope. Open Scope nat_scope.

(** every function u(.., x_i + (n/d)*dx_i, ..) is replaced by u(.., x_i + n*dx_i, ..)/d, once, in
    whatever order the functions are visited; the result only has points of the grid *)
Theorem C104_regularized :
  forall (K : Fld) (e : @sexpr K),
    (forall a, In a (fns e) -> Forall rational (snd a)) ->
    exists r, (forall ord, (forall l, Permutation (ord l) l) -> regularize ord e = Ok r) /\
      (forall a, In a (fns r) -> Forall on_grid (snd a)) /\
      forall (x dx other : nat -> K) U un,
        value (here x dx other U) un r = value (moved x dx other U) un e.
Proof.
  intros K e R. exists (simul image e). split; [|split].
  - intros ord H. apply (regularize_ok ord H e R).
  - apply (fns_image e R).
  - intros. apply (value_simul x dx other U un e R).
Qed.
Print Assumptions C104_regularized.

(** a displacement that is not a rational number of steps is refused *)
Theorem C104_refused :
  forall (K : Fld) ord, (forall l, Permutation (ord l) l) -> forall e : @sexpr K,
    (exists a, In a (fns e) /\ ~ Forall rational (snd a)) -> regularize ord e = Err ValueError.
Proof. intros K ord H e. apply (regularize_bad ord H e). Qed.
Print Assumptions C104_refused.

(** an expression on the grid is left as it is; in particular the function is idempotent *)
Theorem C104_on_the_grid :
  forall (K : Fld) ord, (forall l, Permutation (ord l) l) -> forall e : @sexpr K,
    (forall a, In a (fns e) -> Forall on_grid (snd a)) -> regularize ord e = Ok e.
Proof.
  intros K ord H e G. rewrite (regularize_ok ord H e) by (intros a A; apply (grid_rational _ (G a A))).
  f_equal. rewrite <- (simul_id e) at 2. apply simul_ext. intros a A. apply (image_grid a (G a A)).
Qed.
Print Assumptions C104_on_the_grid.

(** the staggered difference of a derivative of order o is the central difference of spacing dx (o
    even) or dx/2 (o odd); regularised, it is 2^(o-1) times (o odd) the central difference of the
    regular grid, the one finite_difference emits (C21) *)
Theorem C104_derivative :
  forall (K : Fld) (x dx other : nat -> K) (U : nat -> list K -> K) (un : nat -> K -> K)
    (u : nat) (before after : list coeff) (o : nat) (ord : list fatom -> list fatom),
    Forall on_grid before -> Forall on_grid after -> (forall l, Permutation (ord l) l) -> dx (length before) <> f0 ->
    let xi := x (length before) in
    let h := dx (length before) in
    let f := fun v => U u (point x dx other 0 before ++ v :: point x dx other (S (length before)) after) in
    let step := if Nat.even o then h else fdiv h (fadd f1 f1) in
    exists e r,
      sympy_finite_difference u (fun c => before ++ c :: after) o xi h = Ok e /\
      regularize ord e = Ok r /\
      value (here x dx other U) un e = apply_stencil (central o step) f xi step /\
      value (here x dx other U) un r =
        fmul (if Nat.even o then f1 else fpow (fadd f1 f1) (o - 1)) (apply_stencil (central o h) f xi h).
Proof. intros K x dx other U un u before after o ord B A H Hh. exact (regular_value x dx other U un u before after B A ord H o Hh). Qed.
Print Assumptions C104_derivative.

(** the documented example: (U(x+dx/2) - U(x-dx/2))/dx becomes (U(x+dx) - U(x-dx))/(2dx) *)
Theorem C104_first :
  forall (K : Fld) (x dx other : nat -> K) U un ord, (forall l, Permutation (ord l) l) -> dx 0 <> f0 ->
    exists e r, sympy_finite_difference 0 (fun c => [c]) 1 (x 0) (dx 0) = Ok e /\ regularize ord e = Ok r /\
      value (here x dx other U) un r =
        fdiv (fsub (U 0 [fadd (x 0) (dx 0)]) (U 0 [fsub (x 0) (dx 0)])) (fmul (fadd f1 f1) (dx 0)).
Proof.
  intros K x dx other U un ord H Hh.
  destruct (C104_derivative K x dx other U un 0 [] [] 1 ord (Forall_nil _) (Forall_nil _) H Hh) as (e & r & E & R & _ & V).
  exists e, r. split; [exact E|]. split; [exact R|]. rewrite V. exact (first_difference (fun v => U 0 [v]) (x 0) (dx 0) Hh).
Qed.
Print Assumptions C104_first.

(** "transform finite difference written on staggered grid into regular grid" is false of the third
    derivative: on u = x^3 the staggered difference gives 6 = u''', the result gives 24 *)
Theorem C104_third_refuted :
  exists (U : nat -> list QcF -> QcF) (c : list QcF),
    (forall v, U 0 [v] = poly c v) /\
    forall ord, (forall l, Permutation (ord l) l) ->
    exists e r,
      sympy_finite_difference 0 (fun c => [c]) 3 (qc 0 1) (qc 1 1) = Ok e /\ regularize ord e = Ok r /\
      value (here (fun _ => qc 0 1) (fun _ => qc 1 1) (fun _ => f0) U) (fun _ v => v) e = poly (Nat.iter 3 pderiv c) (qc 0 1) /\
      poly (Nat.iter 3 pderiv c) (qc 0 1) = qc 6 1 /\
      value (here (fun _ => qc 0 1) (fun _ => qc 1 1) (fun _ => f0) U) (fun _ v => v) r = qc 24 1.
Proof.
  exists (fun _ p => poly [f0; f0; f0; f1] (hd f0 p)), [f0; f0; f0; f1]. split; [reflexivity|]. intros ord H.
  assert (Hh : @f1 QcF <> f0) by discriminate.
  destruct (C104_derivative QcF (fun _ => qc 0 1) (fun _ => qc 1 1) (fun _ => f0) (fun _ p => poly [f0; f0; f0; f1] (hd f0 p)) (fun _ v => v)
              0 [] [] 3 ord (Forall_nil _) (Forall_nil _) H Hh) as (e & r & E & R & V & W).
  exists e, r. split; [exact E|]. split; [exact R|].
  assert (D : poly (Nat.iter 3 pderiv [f0; f0; f0; @f1 QcF]) (qc 0 1) = qc 6 1) by (apply Qc_is_canon; reflexivity).
  split; [|split; [exact D|]].
  - rewrite V. cbn [length Nat.even app hd].
    apply (central_exact QcF); [discriminate|cbn; lia].
  - rewrite W. cbn [length Nat.even app hd].
    rewrite (central_exact QcF) by (try discriminate; cbn; lia). rewrite D. apply Qc_is_canon. reflexivity.
Qed.
Print Assumptions C104_third_refuted.

(** the sum of the two neighbours at half a step meets the hypotheses: u(x+dx/2) + u(x-dx/2) becomes
    u(x+dx)/2 + u(x-dx)/2; for u = 1, 2 becomes 1.  And a displacement that is a symbol. *)
Example C104_example :
  let e := Add (Fn (0, [Rat (Q2Qc (0 # 1)); Rat (Q2Qc (1 # 2))])) (Fn (0, [Rat (Q2Qc (0 # 1)); Rat (Q2Qc (-1 # 2))])) in
  (forall a, In a (fns e) -> Forall rational (snd a)) /\
  (forall a, In a (fns e) -> ~ Forall on_grid (snd a)) /\
  value (here (fun _ => @f0 QcF) (fun _ => f1) (fun _ => f0) (fun _ _ => f1)) (fun _ v => v) e = qc 2 1 /\
  (value (moved (fun _ => @f0 QcF) (fun _ => f1) (fun _ => f0) (fun _ _ => f1)) (fun _ v => v) e = qc 1 1).
Proof.
  split; [intros a [<-|[<-|[]]]; repeat constructor|]. split; [|split; apply Qc_is_canon; reflexivity].
  intros a [<-|[<-|[]]] H; inversion H as [|? ? _ H']; inversion H' as [|? ? X _]; discriminate X.
Qed.
Example C104_example_refused : @regularize QcF (fun l => l) (Fn (0, [Rat 0%Qc; Other 3])) = Err ValueError.
Proof. reflexivity. Qed.
