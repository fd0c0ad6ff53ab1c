(** The wrappers with [use_numba=True], the default: what changes in
    r_u_sure/wrappers/edit_distance_wrapper_base.py:47-97 and
    r_u_sure/wrappers/call_sequence_wrapper.py:236-308.

    With numba the builders of the DAGs do not check the order of the edges
    (gated_state_dag.py:309-311), and the DAGs are pruned by
    [prune_unreachable_and_rewrite_states] with the wrapper's scratch table
    ([rewrite_states=True], the default) or by [prune_to_reachable_jit].  The packers
    of [make_specialized_dag_packer] (edit_dags.py:1687-1724, constraint_dags.py:836-873,
    part_selection_dags.py:894-931) compile the same [convert_dag_to_packed].

    Simplifications.  Compilation itself, typed lists and machine integers are not
    modelled.  The scratch table is shared by all calls; its contents do not matter,
    since each call starts by clearing it (gated_state_dag.py:384), so the model gives
    every call the same one. *)

From Coq Require Import List Bool Arith Lia ZArith QArith Qcanon.
From Verif Require Import Base SeqNodes Transforms PackedSeq Numbered Graph GatedDag GatedDagRewrite PackedDag Convert MapDag Decisions ConstraintDag EditDag SelectionDag
  RegionDecisions PseudoParse CallSequence DualSolver BuildSystem Combine.
Import ListNotations.
Close Scope Qc_scope. Close Scope Q_scope. Close Scope Z_scope. Open Scope nat_scope.

(** gated_state_dag.py:309-311, one edge after the other. *)
Definition add_edges_unchecked {S A I} (d : partial_dag S A I) (es : list (edge S A I)) : partial_dag S A I :=
  fold_left add_edge_unchecked es d.

(** edit_dags.py:463-539 with [with_numba=True]. *)
Definition construct_edit_dag_jit {M} `{EqDec M} (P : parameters) (prototype target : storage M) : result (dag estate decision (option einfo)) :=
  do ps <- read_tree prototype;
  do ts <- read_tree target;
  Ok (partial_finish (add_edges_unchecked (partial_starting_from (EAt PROCESS High ROOT_SEQ 0 ROOT_SEQ 0))
       (rows P ROOT_SEQ ROOT_SEQ 0 ps ts ++
        [mkEdge (EAt EditDag.MATCH High ROOT_SEQ (length (root_sequence prototype)) ROOT_SEQ (length (root_sequence target)))
           EFinal (Fin 0) None None])) EFinal).
(** constraint_dags.py:209-268 with [with_numba=True]. *)
Definition construct_constraint_dag_jit {M} (prototype : storage M) : result (dag cstate decision cinfo) :=
  do tree <- read_tree prototype;
  Ok (partial_finish (add_edges_unchecked (partial_starting_from (CAt Outside ROOT 0 0))
       (outside_list ROOT 0 0 tree ++ [free (CAt Outside ROOT (length (root_sequence prototype)) 0) CFinal])) CFinal).
(** part_selection_dags.py:267-873 with [with_numba=True]. *)
Definition construct_selection_dag_jit {M} `{EqDec M} (U : text -> M -> utilities) (prototype target : storage M)
  : result (dag sstate decision (option sinfo)) :=
  do ps <- in_order_traversal prototype true;
  do ts <- in_order_traversal target true;
  let ts := map Some ts ++ [None] in
  do es <- prototypes_loop U prototype target None 0 ps ts;
  Ok (partial_finish (add_edges_unchecked (partial_starting_from (SAt SkipUnselected 0 0)) (es ++ finishing (length ps) (length ts))) SFinal).

(** edit_distance_wrapper_base.py:165-170 and 176-181 with each kind of pruning. *)
Definition add_dag_jit {S S' I I'} `{EqDec S} (fs : S -> S') (fi : I -> I') (d : dag S decision I) (factor : Qc)
  : result (pdag * @conversion S' dkey dvalue I') :=
  do r <- convert_dag_to_packed dkey_leb dvalue_leb (prune_to_reachable_jit d) DNA (Some all_values);
  Ok (scale_packed_dag_costs (fst r) factor, map_conversion fs (fun c => c) fi (snd r)).
Definition add_dag_rewrite {S I I'} `{EqDec S} (hash : S -> nat) (scratch : list (option nat)) (fi : I -> I') (d : dag S decision I) (factor : Qc)
  : result (pdag * @conversion nat dkey dvalue I') :=
  do d' <- prune_and_rewrite hash d scratch;
  do r <- convert_dag_to_packed dkey_leb dvalue_leb d' DNA (Some all_values);
  Ok (scale_packed_dag_costs (fst r) factor, map_conversion (fun s => s) (fun c => c) fi (snd r)).

(** edit_distance_wrapper_base.py:143-188 and call_sequence_wrapper.py:496-539, for
    either kind of pruning. *)
Section Build.
  Context {S1 S2 S' I1 I2 T : Type}.
  Definition build_system_with (add1 : dag S1 decision I1 -> Qc -> result (pdag * @conversion S' dkey dvalue (I1 + I2)))
      (add2 : dag S2 decision I2 -> Qc -> result (pdag * @conversion S' dkey dvalue (I1 + I2)))
      (construct : T -> result (dag S1 decision I1)) (constraint : result (dag S2 decision I2))
      (targets : list T) (target_utility_scale_factors : option (list Qc)) : result (@system S' dkey dvalue (I1 + I2)) :=
    do factors <- match target_utility_scale_factors with Some l => Ok l | None => uniform_weights targets end;
    let pairs := combine targets factors in
    do items <- mapM (fun tf => do d <- construct (fst tf); add1 d (snd tf)) pairs;
    let total := fold_right Qcplus 0%Qc factors in
    do dc <- constraint;
    do c <- add2 dc total;
    make_system dkey_leb (items ++ [c]) (Some (map snd pairs ++ [total])).
End Build.
Lemma build_system_python {S1 S2 I1 I2 T} `{EqDec S1} `{EqDec S2} (construct : T -> result (dag S1 decision I1)) (constraint : result (dag S2 decision I2)) targets factors :
  build_system construct constraint targets factors = build_system_with (add_dag inl inl) (add_dag inr inr) construct constraint targets factors.
Proof. reflexivity. Qed.

(** ** The wrappers.  edit_distance_wrapper_base.py:47-97 with [use_numba=True] and
    [rewrite_states=False], then with [rewrite_states=True]; [hash] is Python's hash
    of the states of each kind of DAG. *)
Definition edit_wrapper_jit (P : parameters) (low exit : bool) : wrapper mtype (estate + cstate) (option einfo + cinfo) :=
  mkWrapper (w_prototype (edit_wrapper P low exit)) (w_target (edit_wrapper P low exit))
    (fun prototype targets =>
       build_system_with (add_dag_jit inl inl) (add_dag_jit inr inr) (construct_edit_dag_jit P prototype) (construct_constraint_dag_jit prototype) targets None).
Definition edit_wrapper_rewrite (hash : estate -> nat) (hashc : cstate -> nat) (scratch : list (option nat)) (P : parameters) (low exit : bool)
  : wrapper mtype nat (option einfo + cinfo) :=
  mkWrapper (w_prototype (edit_wrapper P low exit)) (w_target (edit_wrapper P low exit))
    (fun prototype targets =>
       build_system_with (add_dag_rewrite hash scratch inl) (add_dag_rewrite hashc scratch inr)
         (construct_edit_dag_jit P prototype) (construct_constraint_dag_jit prototype) targets None).
(** call_sequence_wrapper.py:236-308. *)
Definition call_wrapper_jit (isspace : nat -> bool) (builtin : list text) (U : text -> text -> utilities) : wrapper text (sstate + cstate) (option sinfo + cinfo) :=
  mkWrapper (w_prototype (call_wrapper isspace builtin U)) (w_target (call_wrapper isspace builtin U))
    (fun prototype targets =>
       build_system_with (add_dag_jit inl inl) (add_dag_jit inr inr) (construct_selection_dag_jit U prototype) (construct_constraint_dag_jit prototype) targets None).
Definition call_wrapper_rewrite (hash : sstate -> nat) (hashc : cstate -> nat) (scratch : list (option nat))
    (isspace : nat -> bool) (builtin : list text) (U : text -> text -> utilities) : wrapper text nat (option sinfo + cinfo) :=
  mkWrapper (w_prototype (call_wrapper isspace builtin U)) (w_target (call_wrapper isspace builtin U))
    (fun prototype targets =>
       build_system_with (add_dag_rewrite hash scratch inl) (add_dag_rewrite hashc scratch inr)
         (construct_selection_dag_jit U prototype) (construct_constraint_dag_jit prototype) targets None).
