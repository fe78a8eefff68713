(** SymbolicPKF.subs_tree (src/sympkf/symbolic/pkfcas.py, 741-759) and gamma_subs (906-911). *)
From Coq Require Import List Arith ZArith QArith Bool String.
From Verif Require Import PyBase PartialOrderModel TreeModel PKFModel PKFObjModel.
Import ListNotations.
Close Scope Q_scope.
Close Scope Z_scope.
Open Scope nat_scope.
Open Scope string_scope.
Open Scope list_scope.
Open Scope state_scope.

Section Tree.
  Variable enum : list mi -> list mi.
  Variable enumD : tdict -> tdict.
  Variable enumC : edict -> edict.
  Variable coords : list string.
  Variable eqs : list poly.

  (** 751: meta_field.subs_tree(), UnivariateTree.__call__ without a degree *)
  Definition m_tree_now (i : nat) : M tdict := fun s =>
    let f := nth i (s_fields s) f_init in
    let '(r, t) := tree_call enum enumD true coords (f_tree f) None in
    (r, set_field i (mkF t (f_closure f)) s).
  (** 753-754: the closure is asked for once per entry *)
  Definition m_closed_now (i : nat) : M edict :=
    d <~ m_tree_now i ;;
    mapS (fun kv => cl <~ m_internal enum coords eqs ;;
                    ret (tree_key coords i (fst kv), sub_exps (enumC cl) (tree_value coords i (snd kv)))) d.
  (** 748-759 *)
  Definition m_subs_tree : M edict :=
    foldS (fun d i => t <~ m_closed_now i ;; ret (dupdate d t)) [] (fields eqs).

  (** gamma_def and gamma_subs, 906-911, with the metric of the field i *)
  Definition gamma_def (i : nat) (k a b : string) : list jet :=
    jkey [(FEps i, [k]); (FEps i, winsert a (winsert b []))].
  (** pkfcas.py 909-911 *)
  Definition gamma_subs (i : nat) (k a b : string) : res poly :=
    gkj <- metric_of coords i k b ;; gik <- metric_of coords i a k ;; gij <- metric_of coords i a b ;;
    Ok (pscale (1 # 2) (padd (pjet gkj [a]) (psub (pjet gik [b]) (pjet gij [k])))).
End Tree.

(** the property read on an object of a world *)
Definition read_tree (enum : list mi -> list mi) (enumD : tdict -> tdict) (enumC : edict -> edict)
    (w : world) (o : nat) : res edict * world :=
  match nth_error (w_objs w) o with
  | None => (Err NameError, w)
  | Some x => let '(r, s) := m_subs_tree enum enumD enumC (o_coords x) (o_eqs x) (o_state x) in
              (r, mkWorld (w_dicts w) (set_nth o (mkObj (o_coords x) (o_eqs x) (o_closure x) s) (w_objs w)))
  end.
