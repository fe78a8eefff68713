(** One-dimensional finite differences: /repo/src/sympkf/symbolic/finite_difference.py 42-62.

    [Derivative(f,x,m).as_finite_difference(points)] is sympy's
    (sympy/calculus/finite_diff.py: [_as_finite_diff], [apply_finite_diff],
    [finite_diff_weights], i.e. Fornberg's algorithm); the algorithm is modelled here
    loop by loop because the stencils the project emits are its output.
    Simplification: the 3-index table of weights is a function updated in place, and
    Python's [delta[m-1]] with m = 0 (index -1) is read as [delta[0]]: the value is
    multiplied by m = 0 in both uses. *)
From Coq Require Import List Arith ZArith Bool.
From Verif Require Import PyBase Scalars FieldFacts.
Import ListNotations.

(** finite_difference.py 52-59: the displacements of the points, in units of [dxi].
    [arange(a,b)] is the list of integers a..b-1, [//] is floor division. *)
Definition zrange (a b : Z) : list Z :=
  map (fun i => (a + Z.of_nat i)%Z) (seq 0 (Z.to_nat (b - a))).

(** finite_difference.py 52-59 *)
Definition fd_points (oi : nat) : list Z :=
  let o := Z.of_nat oi in
  if Nat.eqb (oi mod 2) 1
  then filter (fun k => Z.eqb (k mod 2) 1) (zrange (- o) (o + 1))
  else zrange ((- o) / 2) (o / 2 + 1).

Section Fornberg.
  Context {K : Fld}.
  Open Scope fld_scope.

  (** sympy finite_diff_weights, the array delta; called through as_finite_difference, finite_difference.py 62 *)
  Definition table := nat -> nat -> nat -> K.
  (** sympy finite_diff_weights, an assignment of delta[m][n][nu]; called through finite_difference.py 62 *)
  Definition upd (d : table) (m n nu : nat) (v : K) : table :=
    fun m' n' nu' => if Nat.eqb m m' && Nat.eqb n n' && Nat.eqb nu nu' then v else d m' n' nu'.

  (** sympy [finite_diff_weights(order, x_list, x0)] *)
  Definition fd_inner (M n : nat) (x : nat -> K) (x0 : K) (st : table * K) (nu : nat) : table * K :=
    let '(d, c2) := st in
    let c3 := x n - x nu in
    let c2 := c2 * c3 in
    let d := if Nat.leb n M then upd d n (n - 1) nu 0 else d in
    let d := fold_left (fun d m =>
        upd d m n nu (((x n - x0) * d m (n - 1)%nat nu - fnat m * d (m - 1)%nat (n - 1)%nat nu) / c3))
        (seq 0 (Nat.min n M + 1)) d in
    (d, c2).

  (** sympy finite_diff_weights, the body of the loop on n; called through finite_difference.py 62 *)
  Definition fd_outer (M : nat) (x : nat -> K) (x0 : K) (st : table * K) (n : nat) : table * K :=
    let '(d, c1) := st in
    let '(d, c2) := fold_left (fd_inner M n x x0) (seq 0 n) (d, 1) in
    let d := fold_left (fun d m =>
        upd d m n n (c1 / c2 * (fnat m * d (m - 1)%nat (n - 1)%nat (n - 1)%nat
                                - (x (n - 1)%nat - x0) * d m (n - 1)%nat (n - 1)%nat)))
        (seq 0 (Nat.min n M + 1)) d in
    (d, c2).

  (** sympy finite_diff_weights(order, x_list, x0), called through finite_difference.py 62 *)
  Definition finite_diff_weights (order : nat) (x_list : list K) (x0 : K) : table :=
    let N := (length x_list - 1)%nat in
    let x := fun i => nth i x_list 0 in
    fst (fold_left (fd_outer order x x0) (seq 1 N)
           (upd (fun _ _ _ => 0) 0 0 0 1, 1)).

  (** sympy [apply_finite_diff] with symbolic y values: the list of weights; [None] is
      the ValueError "Too few points" of [_as_finite_diff] *)
  Definition weights (order : nat) (x_list : list K) (x0 : K) : option (list K) :=
    if Nat.ltb (length x_list) (order + 1) then None
    else let d := finite_diff_weights order x_list x0 in
         Some (map (fun nu => d order (length x_list - 1)%nat nu) (seq 0 (length x_list))).

  (** finite_difference.py 43-62: finite difference of Derivative(f, xi, oi) at xi with
      spacing [dxi]: the list of (displacement, weight) *)
  Definition stencil (oi : nat) (xi dxi : K) : option (list (Z * K)) :=
    let pts := fd_points oi in
    match weights oi (map (fun k => xi + fz k * dxi) pts) xi with
    | None => None
    | Some w => Some (combine pts w)
    end.

  (** value of the resulting expression: sum of weight * f(xi + k*dxi) *)
  Definition apply_stencil (l : list (Z * K)) (f : K -> K) (xi dxi : K) : K :=
    fold_right (fun kw acc => snd kw * f (xi + fz (fst kw) * dxi) + acc) 0 l.
End Fornberg.
