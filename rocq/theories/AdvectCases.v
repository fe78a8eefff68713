(** A travelling wave in the plane and a concrete generated class, for the examples of C111. *)
From Coq Require Import List Arith ZArith Bool Reals String Lia Lra Psatz Permutation FunctionalExtensionality.
From Verif Require Import PyBase PyBaseFacts Scalars FieldFacts SymModel FDExprModel FDExprSpec FDReal GridModel GridSpec GridMore ConsistSpec ConsistMain LineCases AdvectModel AdvectSpec.
Import ListNotations.
Open Scope R_scope.

(** ** the class on 8 x 4 points of the square of side 2 pi *)
Definition plane_attr (W : list (list nat -> R)) (name : string) : res (list nat -> R) :=
  if String.eqb name "u" then Ok (nth 0 W (fun _ => 0)) else if String.eqb name "v" then Ok (nth 1 W (fun _ => 0)) else Err KeyError.
Lemma plane_class (a b : list nat -> R) : exists g d, init_index ["x"%string; "y"%string] [8%nat; 4%nat] = Ok d /\
  advect_class Plane [2 * PI; 2 * PI] [8%nat; 4%nat] [a; b] (fun l => l) (fun l => l) g (fun _ _ _ => d) (plane_attr [a; b]).
Proof.
  assert (PP := PI_RGT_0).
  destruct (@grid_init_ok RF ["x"%string; "y"%string] (Some [8%nat; 4%nat]) (Some [2 * PI; 2 * PI])) as (g & Hg & _); try reflexivity.
  { repeat constructor; cbn; intuition discriminate. }
  { intros m [<-|[<-|[]]]; lia. }
  exists g. eexists. split; [reflexivity|]. split; auto; try (intros; apply Permutation_refl).
  - split; [reflexivity|]. intros L [<-|[<-|[]]]; lra.
  - intros t v h. exists []. eexists. split; reflexivity.
  - repeat constructor.
Qed.

(** ** sin (x + 2 y - (w_0 + 2 w_1) t) *)
Definition travelling (w0 w1 t : R) (a : multi) (p : point) : R :=
  2 ^ a 1%nat * sin (p O + 2 * p 1%nat - (w0 + 2 * w1) * t + INR (a O + a 1%nat) * (PI / 2)).
Lemma dsinlin A b c x : derivable_pt_lim (fun s => A * sin (b * s + c)) x (A * (b * cos (b * x + c))).
Proof.
  eapply dl_eq; [|apply (dmult (fun _ => A) (fun s => sin (b * s + c))); [apply dconst|]].
  2: { apply (derivable_pt_lim_comp (fun s => b * s + c) sin); [|apply derivable_pt_lim_sin].
       apply dplus; [|apply dconst]. apply (dmult (fun _ => b) (fun s => s)); [apply dconst|apply derivable_pt_lim_id]. }
  cbv beta. ring.
Qed.
Lemma quarter m z : sin (z + INR (S m) * (PI / 2)) = cos (z + INR m * (PI / 2)).
Proof.
  rewrite S_INR. replace (z + (INR m + 1) * (PI / 2)) with (PI / 2 + (z + INR m * (PI / 2))) by field. symmetry. apply cos_sin.
Qed.
Lemma travelling_solution w0 w1 t1 : transport_solution 2 [2 * PI; 2 * PI] (fun k => nth k [w0; w1] 0) 0 t1 (travelling w0 w1).
Proof.
  unfold travelling. split.
  - intros t _ a i p Hi. destruct i as [|[|i]]; [| |lia]; unfold inc, at_coord; cbn [Nat.eq_dec nat_rec nat_rect].
    + eapply derivable_pt_lim_ext; [|eapply dl_eq; [|apply (dsinlin (2 ^ a 1%nat) 1 (2 * p 1%nat - (w0 + 2 * w1) * t + INR (a O + a 1%nat) * (PI / 2)))]].
      * intros s. cbn. f_equal. f_equal. ring.
      * cbn -[INR]. change (S (a O) + a 1%nat)%nat with (S (a O + a 1%nat)). rewrite quarter. rewrite Rmult_1_l. f_equal. f_equal. ring.
    + eapply derivable_pt_lim_ext; [|eapply dl_eq; [|apply (dsinlin (2 ^ a 1%nat) 2 (p O - (w0 + 2 * w1) * t + INR (a O + a 1%nat) * (PI / 2)))]].
      * intros s. cbn. f_equal. f_equal. ring.
      * cbn -[INR pow]. replace (a O + S (a 1%nat))%nat with (S (a O + a 1%nat)) by lia. rewrite quarter. cbn [pow].
        replace (2 * p 1%nat + (p O - (w0 + 2 * w1) * t + INR (a O + a 1%nat) * (PI / 2))) with (p O + 2 * p 1%nat - (w0 + 2 * w1) * t + INR (a O + a 1%nat) * (PI / 2)) by ring. ring.
  - intros a t p _. unfold inc. cbn [seq map fold_right nth Nat.eq_dec nat_rec nat_rect].
    eapply derivable_pt_lim_ext; [|eapply dl_eq; [|apply (dsinlin (2 ^ a 1%nat) (- (w0 + 2 * w1)) (p O + 2 * p 1%nat + INR (a O + a 1%nat) * (PI / 2)))]].
    + intros s. cbn. f_equal. f_equal. ring.
    + cbn -[INR pow]. replace (a O + S (a 1%nat))%nat with (S (a O + a 1%nat)) by lia. change (S (a O) + a 1%nat)%nat with (S (a O + a 1%nat)). rewrite quarter. cbn [pow].
      replace (- (w0 + 2 * w1) * t + (p O + 2 * p 1%nat + INR (a O + a 1%nat) * (PI / 2))) with (p O + 2 * p 1%nat - (w0 + 2 * w1) * t + INR (a O + a 1%nat) * (PI / 2)) by ring. ring.
  - intros t _ i p L H. destruct i as [|[|i]]; cbn in H; [| |destruct i; discriminate]; injection H as <-; unfold at_coord, none; cbn -[INR pow].
    + f_equal. replace (p O + 2 * PI + 2 * p 1%nat - (w0 + 2 * w1) * t + INR 0 * (PI / 2)) with ((p O + 2 * p 1%nat - (w0 + 2 * w1) * t + INR 0 * (PI / 2)) + 2 * INR 1 * PI) by (cbn; ring). apply sin_period.
    + f_equal. replace (p O + 2 * (p 1%nat + 2 * PI) - (w0 + 2 * w1) * t + INR 0 * (PI / 2)) with ((p O + 2 * p 1%nat - (w0 + 2 * w1) * t + INR 0 * (PI / 2)) + 2 * INR 2 * PI) by (cbn; ring). apply sin_period.
  - exists (fun a => 2 ^ a 1%nat). intros a t p _. rewrite Rabs_mult. rewrite Rabs_pos_eq by (apply pow_le; lra).
    rewrite <- (Rmult_1_r (2 ^ a 1%nat)) at 2. apply Rmult_le_compat_l; [apply pow_le; lra|]. apply Rabs_le. apply SIN_bound.
Qed.
