(** Model of the [build_system] methods of the high-level wrappers:
    r_u_sure/wrappers/edit_distance_wrapper_base.py:141-194 and
    r_u_sure/wrappers/call_sequence_wrapper.py:496-539, which differ only in the
    builder of the per-target DAGs.

    Simplifications.  The system mixes two kinds of DAG, whose states and edge
    metadata have different types; the model tags them with [inl]/[inr] when they
    are put in one list ([add_dag]), which Python's lists do not need.  The pure
    Python [prune_to_reachable] is used ([use_numba=False]); NumbaBuild.v has the
    compiled variants and C78 relates them. *)

From Coq Require Import List Bool Arith ZArith QArith Qcanon.
From Verif Require Import Base Graph GatedDag PackedDag Convert MapDag Decisions DualSolver.
Import ListNotations.
Close Scope Qc_scope. Close Scope Q_scope. Close Scope Z_scope. Open Scope nat_scope.

#[export] Instance EqDec_sum {A B} `{EqDec A} `{EqDec B} : EqDec (A + B).
Proof. intros x y. unfold EqDec in *. decide equality. Defined.

(** lines 153-155 (508-510): [1.0 / len(targets)] for every target. *)
Definition uniform_weights {T} (targets : list T) : result (list Qc) :=
  match targets with
  | [] => Err ZeroDivisionError
  | _ => Ok (map (fun _ => (1 / Q2Qc (inject_Z (Z.of_nat (length targets))))%Qc) targets)
  end.

(** lines 165-170 and 176-181 (517-522, 528-533): prune, pack, scale; the
    conversion data keep the unscaled edges. *)
Definition add_dag {S S' I I'} `{EqDec S} (fs : S -> S') (fi : I -> I') (d : dag S decision I) (factor : Qc)
  : result (pdag * @conversion S' dkey dvalue I') :=
  do r <- convert_dag_to_packed dkey_leb dvalue_leb (prune_to_reachable d) DNA (Some all_values);
  Ok (scale_packed_dag_costs (fst r) factor, map_conversion fs (fun c => c) fi (snd r)).

Section Build.
  Context {S1 S2 I1 I2 T : Type} `{EqDec S1} `{EqDec S2}.
  (** [construct] builds the DAG of one target, [constraint] that of the prototype. *)
  Definition build_system (construct : T -> result (dag S1 decision I1)) (constraint : result (dag S2 decision I2))
      (targets : list T) (target_utility_scale_factors : option (list Qc))
    : result (@system (S1 + S2) dkey dvalue (I1 + I2)) :=
    do factors <- match target_utility_scale_factors with Some l => Ok l | None => uniform_weights targets end;
    let pairs := combine targets factors in
    do items <- mapM (fun tf => do d <- construct (fst tf); add_dag inl inl d (snd tf)) pairs;
    let total := fold_right Qcplus 0%Qc factors in
    do dc <- constraint;
    do c <- add_dag inr inr dc total;
    make_system dkey_leb (items ++ [c]) (Some (map snd pairs ++ [total])).
End Build.
