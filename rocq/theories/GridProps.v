(** Properties of the generated finite-difference model: C26-C28, C30, C31, C79-C81. *)
From Coq Require Import List Arith ZArith Bool String Lia Permutation Ring Field QArith Qcanon.
From Verif Require Import PyBase PyBaseFacts Scalars FieldFacts FornbergModel FDSpec
  FDExprModel FDExprSpec FDExprProofs GridModel GridSpec GridProofs GridMore.
Import ListNotations.
Close Scope Q_scope. Close Scope Qc_scope. Open Scope nat_scope.
Open Scope list_scope.

(** C26 *)
Theorem C26_index_after_any_history :
  forall coords shape, NoDup coords -> List.length shape = List.length coords ->
  (exists d, init_index coords shape = Ok d) /\
  forall hist d, after_history coords shape hist d ->
  forall c s,
    (forall k n, nth_error coords k = Some c -> nth_error shape k = Some n ->
       fst (index coords shape d c s) = Ok (shifted n s))
    /\ (~ In c coords -> index coords shape d c s = (Err KeyError, d)).
Proof.
  intros coords shape ND L. split.
  - destruct (init_index_good coords shape ND L) as (d & E & _). eauto.
  - intros hist d H c s. apply after_history_good in H; auto.
    destruct (index_good coords shape L d c s H) as (A & B & _). split.
    + intros k n Hk Hn. apply A. unfold axis. rewrite (pos_of_nodup coords k c ND Hk). auto.
    + intros Hc. apply B. destruct (axis coords shape c) eqn:E; auto. exfalso. apply Hc.
      apply (axis_In coords shape L). eauto.
Qed.
Print Assumptions C26_index_after_any_history.

(** the answers of a whole history *)
Theorem C26_history_answers :
  forall coords shape d0, NoDup coords -> List.length shape = List.length coords ->
  init_index coords shape = Ok d0 ->
  forall calls i c s, nth_error calls i = Some (c, s) ->
    (forall k n, nth_error coords k = Some c -> nth_error shape k = Some n ->
       nth_error (fst (index_calls coords shape d0 calls)) i = Some (Ok (shifted n s)))
    /\ (~ In c coords -> nth_error (fst (index_calls coords shape d0 calls)) i = Some (Err KeyError)).
Proof.
  intros coords shape d0 ND L E calls i c s Hi.
  destruct (init_index_good coords shape ND L) as (d1 & E1 & G & _). rewrite E in E1. inversion E1; subst d1.
  destruct (index_calls_good coords shape L calls d0 G) as [-> _].
  rewrite (map_nth_error _ _ _ Hi). unfold expected. cbn [fst snd]. split.
  - intros k n Hk Hn. unfold axis. rewrite (pos_of_nodup coords k c ND Hk), Hn. reflexivity.
  - intros Hc. destruct (axis coords shape c) eqn:Ea; auto. exfalso. apply Hc. apply (axis_In coords shape L). eauto.
Qed.
Print Assumptions C26_history_answers.

Example C26_example :
  exists d0, init_index ["x"; "y"]%string [4; 3] = Ok d0
    /\ fst (index_calls ["x"; "y"]%string [4; 3] d0 [("x", -1); ("z", 2); ("y", 7); ("x", -1)]%string%Z)
       = [Ok [3; 0; 1; 2]; Err KeyError; Ok [1; 2; 0]; Ok [3; 0; 1; 2]]%Z.
Proof. eexists. split; reflexivity. Qed.

(** C27: reading through [np.ix_] at any cache state *)
Theorem C27_shifts_compose :
  forall (K : Fld) coords shape, NoDup coords -> List.length shape = List.length coords ->
  forall hist d hist' d' hist'' d'', after_history coords shape hist d -> after_history coords shape hist' d' ->
    after_history coords shape hist'' d'' ->
  forall (u : @arr K) (p q : list Z), List.length p = List.length coords -> List.length q = List.length coords ->
  exists up upq uc,
    fst (read_displaced coords shape d u p) = Ok up
    /\ fst (read_displaced coords shape d' up q) = Ok upq
    /\ fst (read_displaced coords shape d'' u (map (fun pq => (fst pq + snd pq)%Z) (combine p q))) = Ok uc
    /\ forall js, in_range shape js -> upq js = uc js.
Proof.
  intros K coords shape ND L hist d hist' d' hist'' d'' H H' H'' u p q Lp Lq.
  apply after_history_good in H, H', H''; auto.
  assert (Z0 : forall p q, map (fun pq : Z * Z => (fst pq + snd pq)%Z) (combine p q) = zadd p q).
  { clear. induction p; destruct q; simpl; auto. f_equal; auto. }
  rewrite Z0.
  destruct (read_displaced_good K coords shape ND L u p Lp d H) as (up & A1 & A2 & _).
  destruct (read_displaced_good K coords shape ND L up q Lq d' H') as (upq & B1 & B2 & _).
  destruct (read_displaced_good K coords shape ND L u (zadd p q)) with (d := d'') as (uc & C1 & C2 & _); auto.
  { apply zadd_length; auto. }
  exists up, upq, uc. repeat split; auto. intros js Hjs.
  rewrite B2, A2, C2 by (auto; apply wrap_in_range; auto; lia).
  rewrite wrap_wrap by (auto; lia). reflexivity.
Qed.
Print Assumptions C27_shifts_compose.

Theorem C27_shift_identity :
  forall (K : Fld) coords shape, NoDup coords -> List.length shape = List.length coords ->
  forall hist d, after_history coords shape hist d ->
  forall (u : @arr K) (p : list Z),
    Forall2 (fun n s => exists q, s = (q * Z.of_nat n)%Z) shape p ->
  exists up, fst (read_displaced coords shape d u p) = Ok up
    /\ forall js, in_range shape js -> up js = u js.
Proof.
  intros K coords shape ND L hist d H u p Hp. apply after_history_good in H; auto.
  assert (Lp : List.length p = List.length shape) by (clear -Hp; induction Hp; simpl; auto).
  destruct (read_displaced_good K coords shape ND L u p ltac:(lia) d H) as (up & A1 & A2 & _).
  exists up. split; auto. intros js Hjs. rewrite A2, wrap_id; auto.
Qed.
Print Assumptions C27_shift_identity.

(** shifts commute: in particular along different axes *)
Theorem C27_shifts_commute :
  forall (K : Fld) coords shape, NoDup coords -> List.length shape = List.length coords ->
  forall hist d, after_history coords shape hist d ->
  forall (u : @arr K) (p q : list Z), List.length p = List.length coords -> List.length q = List.length coords ->
  exists up uq upq uqp,
    fst (read_displaced coords shape d u p) = Ok up /\ fst (read_displaced coords shape d up q) = Ok upq
    /\ fst (read_displaced coords shape d u q) = Ok uq /\ fst (read_displaced coords shape d uq p) = Ok uqp
    /\ forall js, in_range shape js -> upq js = uqp js.
Proof.
  intros K coords shape ND L hist d H u p q Lp Lq. apply after_history_good in H; auto.
  destruct (read_displaced_good K coords shape ND L u p Lp d H) as (up & A1 & A2 & _).
  destruct (read_displaced_good K coords shape ND L up q Lq d H) as (upq & B1 & B2 & _).
  destruct (read_displaced_good K coords shape ND L u q Lq d H) as (uq & C1 & C2 & _).
  destruct (read_displaced_good K coords shape ND L uq p Lp d H) as (uqp & D1 & D2 & _).
  exists up, uq, upq, uqp. repeat split; auto. intros js Hjs.
  rewrite B2, A2, D2, C2 by (auto; apply wrap_in_range; auto; lia).
  rewrite !wrap_wrap by (auto; lia). rewrite zadd_comm. reflexivity.
Qed.
Print Assumptions C27_shifts_commute.

(** the shifted array really is the displaced one *)
Theorem C27_read_is_translation :
  forall (K : Fld) coords shape, NoDup coords -> List.length shape = List.length coords ->
  forall hist d, after_history coords shape hist d ->
  forall (u : @arr K) (p : list Z), List.length p = List.length coords ->
  exists up, fst (read_displaced coords shape d u p) = Ok up
    /\ forall js, in_range shape js -> up js = u (wrap shape p js).
Proof.
  intros K coords shape ND L hist d H u p Lp. apply after_history_good in H; auto.
  destruct (read_displaced_good K coords shape ND L u p Lp d H) as (up & A1 & A2 & _). eauto.
Qed.
Print Assumptions C27_read_is_translation.

Example C27_example :
  exists d0 b, init_index ["x"; "y"]%string [4; 3] = Ok d0
    /\ fst (read_displaced ["x"; "y"]%string [4; 3] d0
              (fun js => @fnat QcF (10 * nth 0 js 0 + nth 1 js 0)) [-1; 4]%Z) = Ok b
    /\ b [0; 2] = fnat 30 /\ b [3; 1] = fnat 22.
Proof. eexists. eexists. split; [reflexivity|]. split; [reflexivity|]. split; reflexivity. Qed.

(** C28: the generated code of any derivative, evaluated at any cache state *)
Theorem C28_conservation :
  forall (K : Fld) (x dx : nat -> K) (ord : list datom -> list datom) coords shape fuel ds l hist d,
  (forall l, Permutation (ord l) l) ->
  NoDup coords -> List.length shape = List.length coords -> after_history coords shape hist d ->
  (forall i o, In (i, o) ds -> dx i <> f0 /\ i < List.length coords) ->
  (exists i o, In (i, o) ds /\ 0 < o) -> List.length ds < fuel ->
  finite_difference_derivative x dx ord fuel (repeat 0%Z (List.length coords), ds) = Ok l ->
  forall u, exists b, generated_derivative coords shape d l u = Ok b /\ gsum shape b = f0.
Proof.
  intros K x dx ord coords shape fuel ds l hist d Ho ND L H Hd Hpos Hf E u.
  apply after_history_good in H; auto.
  rewrite (fdd_tensor K x dx ord Ho fuel _ ds Hf) in E by (intros i o I; apply (Hd i o I)). inversion E; subst l.
  destruct (eval_terms_good K coords shape ND L u (shifts K (tensor K dx (repeat 0%Z (List.length coords)) ds))) with (d := d)
    as (b & B1 & B2 & _); auto.
  { intros c disp I. rewrite (shifts_lengths K dx _ _ _ _ I), repeat_length. auto. }
  exists b. split; [exact B1|]. rewrite (gsum_ext K shape b _ B2). rewrite <- L.
  apply grid_conservation; auto. intros i o I. apply (Hd i o I).
Qed.
Print Assumptions C28_conservation.

Theorem C28_summation_by_parts :
  forall (K : Fld) (x dx : nat -> K) (ord : list datom -> list datom) coords shape fuel ds l hist d hist' d',
  (forall l, Permutation (ord l) l) ->
  NoDup coords -> List.length shape = List.length coords ->
  after_history coords shape hist d -> after_history coords shape hist' d' ->
  (forall i o, In (i, o) ds -> dx i <> f0 /\ i < List.length coords) -> List.length ds < fuel ->
  finite_difference_derivative x dx ord fuel (repeat 0%Z (List.length coords), ds) = Ok l ->
  forall f g, exists Df Dg,
    generated_derivative coords shape d l f = Ok Df /\ generated_derivative coords shape d' l g = Ok Dg
    /\ gsum shape (fun js => (f js * Dg js)%fld)
       = (fpow (- f1) (fold_right (fun d acc => snd d + acc) 0 ds)%nat * gsum shape (fun js => g js * Df js))%fld.
Proof.
  intros K x dx ord coords shape fuel ds l hist d hist' d' Ho ND L H H' Hd Hf E f g.
  apply after_history_good in H, H'; auto.
  rewrite (fdd_tensor K x dx ord Ho fuel _ ds Hf) in E by (intros i o I; apply (Hd i o I)). inversion E; subst l.
  assert (LL : forall c disp, In (c, disp) (shifts K (tensor K dx (repeat 0%Z (List.length coords)) ds)) ->
     List.length disp = List.length coords).
  { intros c disp I. rewrite (shifts_lengths K dx _ _ _ _ I), repeat_length. auto. }
  destruct (eval_terms_good K coords shape ND L f _ LL d H) as (bf & F1 & F2 & _).
  destruct (eval_terms_good K coords shape ND L g _ LL d' H') as (bg & G1 & G2 & _).
  exists bf, bg. split; [exact F1|]. split; [exact G1|].
  rewrite (gsum_ext K shape _ (fun js => f js * lin_shift shape (shifts K (tensor K dx (repeat 0%Z (List.length coords)) ds)) g js)%fld)
    by (intros js Hjs; rewrite G2; auto).
  rewrite (gsum_ext K shape (fun js => g js * bf js)%fld (fun js => g js * lin_shift shape (shifts K (tensor K dx (repeat 0%Z (List.length coords)) ds)) f js)%fld)
    by (intros js Hjs; rewrite F2; auto).
  rewrite <- L. apply grid_sbp.
Qed.
Print Assumptions C28_summation_by_parts.

(** a mixed derivative on a rectangular grid: hypotheses met, operator not zero *)
Example C28_example :
  exists d0 l, init_index ["x"; "y"]%string [4; 3] = Ok d0
    /\ @finite_difference_derivative QcF (fun _ => f0) (fun _ => f1) (fun l => l) 3
         (repeat 0%Z 2, [(0, 1); (1, 2)]) = Ok l
    /\ match generated_derivative ["x"; "y"]%string [4; 3] d0 l
         (fun js => @fnat QcF (nth 0 js 0 * nth 0 js 0 * nth 1 js 0)) with
       | Ok b => this (b [1; 0]) = this (qc 6 1) | Err _ => False end.
Proof.
  eexists. exists (tensor QcF (fun _ => f1) (repeat 0%Z 2) [(0, 1); (1, 2)]). split; [reflexivity|].
  split; [apply fdd_tensor; [auto|simpl; lia|intros; discriminate]|].
  vm_compute. reflexivity.
Qed.

(** C30 *)
Theorem C30_constants :
  forall (K : Fld) coords cfuncs consts shape (lengths : option (list K)) kwargs o w,
  NoDup (map fst kwargs) ->
  construct coords cfuncs consts shape lengths kwargs = Ok (o, w) ->
  exists g, grid_init coords shape lengths = Ok g /\
  (forall n, In n (cfuncs ++ consts) ->
     (forall v, In (n, v) kwargs -> dget string_dec n o = Some v)
     /\ (~ In n (map fst kwargs) -> dget string_dec n o = Some NaN))
  /\ (forall n v, ~ In n (cfuncs ++ consts) -> (dget string_dec n o = Some v <->
        In (n, v) [("shape"%string, AShape (g_shape g)); ("lengths"%string, ALengths (g_lengths g)); ("_index"%string, AIndex (g_index g));
                   ("dx"%string, ADx (g_dx g)); ("x"%string, Ax (g_x g)); ("X"%string, AX (g_X_shapes g))]))
  /\ (forall n, In n w <-> In n (cfuncs ++ consts) /\ (~ In n (map fst kwargs) \/ In (n, NaN) kwargs)).
Proof.
  intros K coords cf cs shape lengths kw o w ND E. unfold construct in E.
  destruct (grid_init coords shape lengths) as [g|e]; [|discriminate]. cbn [bind] in E. exists g. split; auto.
  assert (Eo : o = fst (set_constants cf cs kw (grid_attrs g))) by (injection E; auto).
  assert (Ew : w = snd (set_constants cf cs kw (grid_attrs g))) by (injection E; auto).
  assert (Iff : forall n v, In (n, v) kw <-> dget string_dec n kw = Some v).
  { intros n v. split; [apply In_dget; exact ND|apply dget_Some_In]. }
  assert (No : forall n, ~ In n (map fst kw) <-> dget string_dec n kw = None).
  { intros n. symmetry. apply dget_None. }
  subst o w. split; [|split].
  - intros n Hn. rewrite set_constants_get by auto. destruct (in_dec string_dec n (cf ++ cs)) as [_|]; [|tauto]. split.
    + intros v Hv. apply Iff in Hv. rewrite Hv. auto.
    + intros H. apply No in H. rewrite H. auto.
  - intros n v Hn. rewrite set_constants_get by auto. destruct (in_dec string_dec n (cf ++ cs)); [tauto|].
    unfold grid_attrs. rewrite !dget_dset. cbn [dget In].
    repeat match goal with |- context [string_dec n ?s] => destruct (string_dec n s) as [->|] end; intuition congruence.
  - intros n. rewrite set_constants_warn by auto. rewrite No, Iff. tauto.
Qed.
Print Assumptions C30_constants.

Example C30_example :
  exists o, @construct QcF ["x"%string] ["f"%string] ["k"; "c"]%string (Some [4]) None
              [("k", Val f1); ("other", Val f1)]%string = Ok (o, ["f"; "c"]%string)
    /\ dget string_dec "k"%string o = Some (Val f1) /\ dget string_dec "c"%string o = Some NaN
    /\ dget string_dec "other"%string o = None.
Proof. eexists. repeat split; reflexivity. Qed.

(** C31 *)
Theorem C31_lengths_validated :
  forall (K : Fld) coords shape (lengths : option (list K)),
  (exists s, shape = Some s /\ List.length s <> List.length coords)
  \/ (exists l, lengths = Some l /\ List.length l <> List.length coords) ->
  grid_init coords shape lengths = Err ValueError.
Proof.
  intros K coords shape lengths H. unfold grid_init.
  assert (R : forall (A : Type) (a : A), Nat.eqb (List.length (repeat a (List.length coords))) (List.length coords) = true)
    by (intros; rewrite repeat_length; apply Nat.eqb_refl).
  destruct H as [(s & -> & N)|(l & -> & N)].
  - apply Nat.eqb_neq in N. rewrite N. reflexivity.
  - apply Nat.eqb_neq in N. rewrite N. 
    destruct (negb (Nat.eqb (List.length match shape with Some s => s | None => repeat 100 (List.length coords) end) (List.length coords)));
      reflexivity.
Qed.
Print Assumptions C31_lengths_validated.

Theorem C31_grid :
  forall (K : Fld) coords shape0 (lengths0 : option (list K)), NoDup coords ->
  forall shape lengths,
    (shape0 = Some shape \/ shape0 = None /\ shape = map (fun _ => 100) coords) ->
    (lengths0 = Some lengths \/ lengths0 = None /\ lengths = map (fun _ => f1) coords) ->
    List.length shape = List.length coords -> List.length lengths = List.length coords ->
    (forall n, In n shape -> n <> 0) ->
  exists g, grid_init coords shape0 lengths0 = Ok g
    /\ g_shape g = shape /\ g_lengths g = lengths
    /\ List.length (g_dx g) = List.length coords /\ List.length (g_x g) = List.length coords
    /\ forall k n len, nth_error shape k = Some n -> nth_error lengths k = Some len ->
         nth_error (g_dx g) k = Some (len / fnat n)%fld
         /\ exists xs, nth_error (g_x g) k = Some xs /\ List.length xs = n
              /\ forall j, j < n -> nth_error xs j = Some (fnat j * (len / fnat n))%fld.
Proof.
  intros K coords shape0 lengths0 ND shape lengths Hs Hl Ls Ll Hn.
  assert (R : forall (A : Type) (a : A) (l : list string), map (fun _ => a) l = repeat a (List.length l)).
  { clear. induction l; simpl; auto. f_equal; auto. }
  assert (Es : match shape0 with None => repeat 100 (List.length coords) | Some s => s end = shape).
  { destruct Hs as [->|[-> ->]]; auto. }
  assert (El : match lengths0 with None => repeat f1 (List.length coords) | Some s => s end = lengths).
  { destruct Hl as [->|[-> ->]]; auto. }
  pose proof (grid_init_ok coords shape0 lengths0 ND) as G. cbv zeta in G. rewrite Es, El in G.
  destruct (G Ls Ll Hn) as (g & G0 & G1 & G2 & G3 & G4 & _). clear G.
  exists g. split; [auto|]. split; [auto|]. split; [auto|].
  split; [rewrite G3, map_length, combine_length; lia|].
  split; [rewrite G4, G3, map_length, combine_length, map_length, combine_length; lia|].
  assert (C : forall (A B : Type) (l : list A) (l' : list B) k a b, nth_error l k = Some a -> nth_error l' k = Some b ->
    nth_error (combine l l') k = Some (a, b)).
  { clear. induction l as [|x l IH]; intros [|y l'] [|k] a b; simpl; try discriminate.
    - intros E1 E2. inversion E1; inversion E2; auto.
    - apply IH. }
  intros k n len Hk Hlen.
  assert (D : nth_error (g_dx g) k = Some (len / fnat n)%fld).
  { rewrite G3. rewrite (map_nth_error _ _ _ (C _ _ lengths shape k len n Hlen Hk)). reflexivity. }
  split; [exact D|]. exists (axis_points n (len / fnat n)%fld). split; [|split].
  - rewrite G4. rewrite (map_nth_error _ _ _ (C _ _ shape (g_dx g) k n _ Hk D)). reflexivity.
  - unfold axis_points. rewrite map_length, seq_length. auto.
  - intros j Hj. unfold axis_points. rewrite (map_nth_error _ j _ (d := j)); auto.
    rewrite (nth_error_nth' _ 0) by (rewrite seq_length; auto). rewrite seq_nth; auto.
Qed.
Print Assumptions C31_grid.

(** an axis with no point is refused by the division of line 31 *)
Theorem C31_empty_axis :
  forall (K : Fld) coords shape (lengths : list K), NoDup coords ->
  List.length shape = List.length coords -> List.length lengths = List.length coords -> In 0 shape ->
  grid_init coords (Some shape) (Some lengths) = Err ZeroDivisionError.
Proof.
  intros K coords shape lengths ND Ls Ll H. unfold grid_init. rewrite Ls, Ll, Nat.eqb_refl. cbn [negb].
  destruct (init_index_good coords shape ND Ls) as (d & E & _). rewrite E. cbn [bind].
  rewrite mapM_div_0 by (auto; lia). reflexivity.
Qed.
Print Assumptions C31_empty_axis.

Example C31_example :
  exists g, @grid_init QcF ["x"; "y"]%string (Some [4; 2]) (Some [f1; qc 3 1]) = Ok g
    /\ map (map this) (g_x g) = [map this [qc 0 1; qc 1 4; qc 1 2; qc 3 4]; map this [qc 0 1; qc 3 2]].
Proof. eexists. split; reflexivity. Qed.

(** C79 *)
Theorem C79_meshgrid_shape :
  forall (K : Fld) coords shape (lengths : option (list K)) g, NoDup coords ->
  grid_init coords (Some shape) lengths = Ok g ->
  List.length (g_X_shapes g) = List.length coords
  /\ forall sh, In sh (g_X_shapes g) ->
     match shape with
     | n0 :: n1 :: r => sh = n1 :: n0 :: r /\ (sh = shape <-> n0 = n1)
     | _ => sh = shape
     end.
Proof.
  intros K coords shape lengths g ND E.
  assert (X : g_X_shapes g = repeat (meshgrid_shape shape) (List.length coords)).
  { unfold grid_init in E.
    destruct (negb (List.length shape =? List.length coords)); [discriminate|].
    match type of E with (if ?b then _ else _) = _ => destruct b end; [discriminate|].
    destruct (init_index coords shape) as [i|]; [|discriminate]. cbn [bind] in E.
    match type of E with bind ?m _ = _ => destruct m as [dx|] end; [|discriminate]. cbn [bind] in E.
    match type of E with bind ?m _ = _ => destruct m as [dx'|] end; [|discriminate]. cbn [bind] in E.
    inversion E. reflexivity. }
  rewrite X. split; [apply repeat_length|]. intros sh I. apply repeat_spec in I. subst sh.
  destruct shape as [|n0 [|n1 r]]; cbn; auto. split; auto. split; [intros H; inversion H; auto|intros ->; auto].
Qed.
Print Assumptions C79_meshgrid_shape.

Theorem C79_field_shape_refuted :
  exists coords shape g, NoDup coords /\ @grid_init QcF coords (Some shape) None = Ok g
    /\ exists sh, In sh (g_X_shapes g) /\ sh <> shape.
Proof.
  exists ["x"; "y"]%string, [4; 3]. eexists. split; [|split; [reflexivity|]].
  - repeat constructor; simpl; intuition discriminate.
  - exists [3; 4]. split; [left; reflexivity|discriminate].
Qed.
Print Assumptions C79_field_shape_refuted.

(** C80 *)
Theorem C80_write_is_seen :
  forall coords shape hist d c s a, NoDup coords -> List.length shape = List.length coords ->
  after_history coords shape hist d -> In c coords ->
  let d' := write_returned coords shape d c s a in
  fst (index coords shape d' c s) = Ok a
  /\ (s = 0%Z -> forall k n, nth_error coords k = Some c -> nth_error shape k = Some n ->
      forall s', s' <> 0%Z -> dget ikey_dec (c, s') d = None ->
      fst (index coords shape d' c s') = Ok (map (fun i => ((i + s') mod Z.of_nat n)%Z) a)).
Proof.
  intros coords shape hist d c s a ND L H Hc. apply after_history_good in H; auto.
  unfold write_returned. destruct (index_good coords shape L d c s H) as (A & _ & G').
  pose proof Hc as Hc'. apply (axis_In coords shape L) in Hc'. destruct Hc' as [n Hn].
  specialize (A n Hn). destruct (index coords shape d c s) as [v d1] eqn:E. cbn [fst snd] in *. subst v. cbv zeta.
  split.
  - unfold index. rewrite dget_dset. destruct (ikey_dec (c, s) (c, s)); [reflexivity|congruence].
  - intros -> k m Hk Hm s' Ns' N.
    assert (d1 = d).
    { unfold index in E. destruct H as [_ H]. destruct (H c Hc) as [a0 Ha0]. rewrite Ha0 in E. inversion E; auto. }
    subst d1. unfold index. rewrite dget_dset. destruct (ikey_dec (c, s') (c, 0%Z)) as [Eq|_]; [inversion Eq; congruence|].
    rewrite N, dget_dset. destruct (ikey_dec (c, 0%Z) (c, 0%Z)); [|congruence].
    rewrite (pos_of_nodup coords k c ND Hk), Hm. reflexivity.
Qed.
Print Assumptions C80_write_is_seen.

(** so the value of [index] is not a function of its arguments once callers may write *)
Theorem C80_pure_under_writes_refuted :
  exists coords shape d, NoDup coords /\ List.length shape = List.length coords
    /\ after_history coords shape [] d
    /\ exists c s a, In c coords
    /\ fst (index coords shape (write_returned coords shape d c 0%Z a) c s) <> fst (index coords shape d c s).
Proof.
  exists ["x"%string], [3]. eexists. split; [repeat constructor; simpl; tauto|]. split; [reflexivity|].
  split; [eexists; split; reflexivity|].
  exists "x"%string, 1%Z, [0; 0; 0]%Z. split; [left; auto|]. vm_compute. discriminate.
Qed.
Print Assumptions C80_pure_under_writes_refuted.

(** C81 *)
Theorem C81_reserved_name_replaced :
  forall (K : Fld) coords cfuncs consts shape (lengths : option (list K)) kwargs o w g,
  NoDup (map fst kwargs) ->
  construct coords cfuncs consts shape lengths kwargs = Ok (o, w) -> grid_init coords shape lengths = Ok g ->
  let grid_names := ["shape"; "lengths"; "dx"; "x"; "X"; "_index"]%string in
  (forall n v, In (n, v) [("shape"%string, AShape (g_shape g)); ("lengths"%string, ALengths (g_lengths g)); ("dx"%string, ADx (g_dx g));
                          ("x"%string, Ax (g_x g)); ("X"%string, AX (g_X_shapes g)); ("_index"%string, AIndex (g_index g))] ->
     ~ In n (cfuncs ++ consts) -> dget string_dec n o = Some v)
  /\ (forall n, In n grid_names -> In n (cfuncs ++ consts) -> ~ In n (map fst kwargs) ->
        dget string_dec n o = Some NaN).
Proof.
  intros K coords cf cs shape lengths kw o w g ND E G names.
  destruct (C30_constants K coords cf cs shape lengths kw o w ND E) as (g' & G' & A & B & _).
  rewrite G in G'. inversion G'; subst g'. split.
  - intros n v I H. apply B; [exact H|]. cbn in *. tauto.
  - intros n _ H H'. apply A; auto.
Qed.
Print Assumptions C81_reserved_name_replaced.

Theorem C81_grid_preserved_refuted :
  exists coords consts o w g, @construct QcF coords [] consts (Some [4]) None [] = Ok (o, w)
    /\ grid_init coords (Some [4]) None = Ok g
    /\ dget string_dec "dx"%string o <> Some (ADx (g_dx g)).
Proof.
  exists ["x"%string], ["dx"%string]. eexists. eexists. eexists. split; [reflexivity|]. split; [reflexivity|].
  discriminate.
Qed.
Print Assumptions C81_grid_preserved_refuted.

Example C81_example_values :
  forall g : @grid QcF,
  map (fun n => dget string_dec n (grid_attrs g)) ["shape"; "lengths"; "dx"; "x"; "X"; "_index"]%string
  = map Some [AShape (g_shape g); ALengths (g_lengths g); ADx (g_dx g); Ax (g_x g); AX (g_X_shapes g); AIndex (g_index g)].
Proof. reflexivity. Qed.
