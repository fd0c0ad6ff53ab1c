(** Model of r_u_sure/wrappers/demo_runner.py:88-178 and 259-275 ([combine],
    [get_extracted_parts]), of the wrapper interface
    r_u_sure/wrappers/wrapper_base.py with its helper [compute_sample_system_info],
    and of the two kinds of wrapper that [combine] is used with:
    edit_distance_wrapper_base.py and call_sequence_wrapper.py.

    Simplifications.  [parse] stands for [parser_helper.parse_to_nodes] and [clock] for
    the wall clock compared with the soft timeout.  [fuel] bounds the rounds of the
    solver; running out of it is the outcome [None], which is not a return value.
    The dictionaries [context_info] and [solution_info] are records.  Costs are exact
    ([cost]), sums and means are not rounded. *)

From Coq Require Import List Bool Arith Lia ZArith QArith Qcanon.
From Verif Require Import Base SeqNodes Transforms PackedSeq Graph GatedDag PackedDag Convert Decisions ConstraintDag EditDag SelectionDag
  RegionDecisions PseudoParse CallSequence DualSolver BuildSystem.
Import ListNotations.
Close Scope Qc_scope. Close Scope Q_scope. Close Scope Z_scope. Open Scope nat_scope.

(** [-c] for a finite cost; [-inf] is not modelled and becomes [NaN]. *)
Definition cneg (c : cost) : cost := match c with Fin q => Fin (- q)%Qc | _ => NaN end.
(** [l[i]] for a Python integer [i]. *)
Definition py_index {A} (l : list A) (i : Z) : result A :=
  let j := if (i <? 0)%Z then (i + Z.of_nat (length l))%Z else i in
  if (j <? 0)%Z then Err IndexError else or_err IndexError (nth_error l (Z.to_nat j)).

(** ** wrapper_base.py:224-254, [compute_sample_system_info]. *)
Record sample_info := mkSample {
  costs_unsorted : list cost;   (* sample_system_costs_unsorted *)
  costs_sorted : list cost;     (* sample_system_costs *)
  cost_average : cost;
  cost_variance : cost;
  cost_rank : option nat        (* true_cost_rank_in_sample_system *)
}.
Definition of_len {A} (l : list A) : Qc := Q2Qc (inject_Z (Z.of_nat (length l))).
(** [np.mean]; the mean of nothing is [nan]. *)
Definition mean (l : list cost) : cost :=
  match l, csum l with
  | _ :: _, Fin s => Fin (s / of_len l)%Qc
  | [], _ => NaN
  | _, c => c
  end.
(** [np.var(l, ddof=1)]; [nan] for fewer than two values. *)
Definition var_ddof1 (l : list cost) : cost :=
  match l, mean l with
  | _ :: _ :: _, Fin m =>
      match csum (map (fun c => match c with Fin q => Fin ((q - m) * (q - m))%Qc | c => c end) l) with
      | Fin s => Fin (s / (of_len l - 1))%Qc
      | c => c
      end
  | _, _ => NaN
  end.
(** [bisect.bisect_left]; the loop runs at most [length l] times. *)
Fixpoint bisect_loop (fuel : nat) (l : list cost) (x : cost) (lo hi : nat) : nat :=
  match fuel with
  | 0 => lo
  | S f =>
      if lo <? hi then
        let mid := Nat.div2 (lo + hi) in
        if cltb (nth mid l NaN) x then bisect_loop f l x (S mid) hi else bisect_loop f l x lo mid
      else lo
  end.
Definition bisect_left (l : list cost) (x : cost) : nat := bisect_loop (length l) l x 0 (length l).
(** [sorted] on numbers; [x <= y] is [not (y < x)]. *)
Definition sort_costs (l : list cost) : list cost := sort (fun a b => negb (cltb b a)) l.

Section Info.
  Context {St In : Type}.
  Definition compute_sample_system_info (dags : list pdag) (convs : list (@conversion St dkey dvalue In)) (asg : assignments)
      (total_cost : option cost) : result sample_info :=
    do costs <- mapM (fun dc => do r <- constrained_best_path (fst dc) (snd dc) asg; Ok (path_cost (fst r))) (combine dags convs);
    let sorted := sort_costs costs in
    Ok (mkSample costs sorted (mean sorted) (var_ddof1 sorted) (option_map (bisect_left sorted) total_cost)).

  (** edit_distance_wrapper_base.py:196-255 and call_sequence_wrapper.py:541-643,
      [solution_info], with a sample system and no evaluation target.  The marker for
      empty regions is the default, the empty string (region_decisions.py:131). *)
  Record solution := mkSolution { extracted_parts : list (text * bool); s_sample : sample_info }.
  Definition solution_info {M} (prototype : storage M) (asg : assignments) (sample_system : @system St dkey dvalue In) : result solution :=
    let '(parts, e) := extract_sequence_with_regions prototype asg [] in
    match e with
    | Some err => Err err
    | None =>
        do info <- compute_sample_system_info (map m_dag (removelast (tables (data sample_system))))
                     (removelast (conversion_data sample_system)) asg None;
        Ok (mkSolution parts info)
    end.
End Info.

(** ** wrapper_base.py:40-146, what [combine] uses of a wrapper.  The context info is
    [context_prefix_contents], if there is one. *)
Record wrapper (M St In : Type) := mkWrapper {
  w_prototype : list (node M) -> nat -> storage M * option text;
  w_target : list (node M) -> nat -> storage M;
  w_build : storage M -> list (storage M) -> result (@system St dkey dvalue In)
}.
Arguments mkWrapper {M St In}. Arguments w_prototype {M St In}. Arguments w_target {M St In}. Arguments w_build {M St In}.

(** parser_tools.py:42-66, [allow_regions_around_pseudoparse_node]; it is only asked
    about tokens and groups. *)
Definition allow_regions (n : node mtype) : bool :=
  let bracket m := match m with MNode NMatchLeft | MNode NMatchInner | MNode NMatchRight => true | _ => false end in
  match n with
  | Token t m => if bracket m then false else negb (eqb t [10])
  | Group _ m => negb (bracket m)
  | _ => true
  end.

#[export] Instance EqDec_mtype : EqDec mtype.
Proof. intros x y. decide equality. apply eq_dec. Defined.

(** edit_distance_wrapper_base.py:100-127, [_process_prototype_and_context_maybe_exit]:
    the annotated and truncated sequence, before packing. *)
Definition annotate (can_insert_low_confidence can_early_exit : bool) (ns : list (node mtype)) (location : nat) : list (node mtype) :=
  let s1 := if can_insert_low_confidence then insert_regions ns true allow_regions else ns in
  let s2 := if can_early_exit then insert_early_exit s1 true true else s1 in
  truncate_prefix_at_offset s2 (Z.of_nat location).
(** edit_distance_wrapper_base.py:129-139 ([process_target]) and 141-194
    ([build_system], with the default weights).  [UncertaintyRegionsWrapper] is
    [edit_wrapper P true false] (uncertainty_regions_wrapper.py:255-267); with early
    exits the second flag is [true] (prefix_truncation_wrapper.py:130-143). *)
Definition edit_wrapper (P : parameters) (can_insert_low_confidence can_early_exit : bool) : wrapper mtype (estate + cstate) (option einfo + cinfo) :=
  mkWrapper
    (fun ns location => (pack (annotate can_insert_low_confidence can_early_exit ns location), Some (firstn location (render ns))))
    (fun ns location => pack (truncate_prefix_at_offset ns (Z.of_nat location)))
    (fun prototype targets => build_system (construct_edit_dag P prototype) (construct_constraint_dag prototype) targets None).
(** call_sequence_wrapper.py:319-342 and 496-539. *)
Definition call_wrapper (isspace : nat -> bool) (builtin : list text) (U : text -> text -> utilities) : wrapper text (sstate + cstate) (option sinfo + cinfo) :=
  mkWrapper
    (fun ns location => (CallSequence.process_prototype_and_context isspace builtin ns location, None))
    (fun ns location => CallSequence.process_target isspace builtin ns location)
    (fun prototype targets => build_system (construct_selection_dag U prototype) (construct_constraint_dag prototype) targets None).

(** ** demo_runner.py:36-60, [CombineResult]. *)
Section Combine.
  Context {M St In : Type}.
  Record combine_result := mkCombine {
    r_context_info : option text;
    r_prototype : storage M;
    r_targets : list (storage M);
    r_system : @system St dkey dvalue In;
    r_opt_results : sweep_results;
    utility_dual_bound : cost;
    solution_utility : cost;
    assignment_vector : option (list (option nat));
    assignment_map : option assignments;
    r_solution_info : option solution
  }.
  (** The default tolerance, consistent_path_dual_solver.py:642. *)
  Definition default_tolerance : Qc := Q2Qc (1 # 100000).
  (** The entry -1, a variable that was not decided, would index the last value. *)
  Definition vector_index (nv : nat) (a : option nat) : nat := match a with Some v => v | None => nv - 1 end.

  (** Lines 96-129: what is built before solving. *)
  Definition prepare (w : wrapper M St In) (parse : text -> result (list (node M))) (context : text) (samples : list text) (prototype_index : Z)
    : result (storage M * option text * list (storage M) * @system St dkey dvalue In) :=
    let cursor := length context in
    let outputs := map (fun sample => context ++ sample) samples in
    do prototype_string <- py_index outputs prototype_index;
    do nodes <- parse prototype_string;
    let (prototype, info) := w_prototype w nodes cursor in
    do targets <- mapM (fun s => do ns <- parse s; Ok (w_target w ns cursor)) outputs;
    do sy <- w_build w prototype targets;
    Ok (prototype, info, targets, sy).
  (** Lines 130-178: what is made of the solver's result. *)
  Definition finish (prototype : storage M) (info : option text) (targets : list (storage M)) (sy : @system St dkey dvalue In)
      (res : sweep_results) : result combine_result :=
    match rev (objective_at_step res) with
    | [] => Ok (mkCombine info prototype targets sy res NaN NaN None None None)
    | cost_dual_bound :: _ =>
        do g <- greedy_extract (data sy) FORWARD;
        do asg <- assignments_from_assignment_vector sy (map (vector_index (length (sys_values sy))) (fst g));
        do sol <- solution_info prototype asg sy;
        Ok (mkCombine info prototype targets sy res (cneg cost_dual_bound) (cneg (snd g)) (Some (fst g)) (Some asg) (Some sol))
    end.
  Definition combine_samples (fuel : nat) (clock : nat -> bool) (w : wrapper M St In) (parse : text -> result (list (node M)))
      (context : text) (samples : list text) (prototype_index : Z) : option (result combine_result) :=
    match prepare w parse context samples prototype_index with
    | Err e => Some (Err e)
    | Ok (prototype, info, targets, sy) =>
        match solve_system_with_sweeps fuel clock default_tolerance (data sy) with
        | None => None
        | Some (Err e) => Some (Err e)
        | Some (Ok (res, s')) =>
            Some (finish prototype info targets (mkSystem s' (sys_keys sy) (sys_values sy) (conversion_data sy)) res)
        end
    end.

  (** Lines 259-275, [get_extracted_parts]: [itertools.groupby] on the flags. *)
  Fixpoint grouped (l : list (text * bool)) : list (text * bool) :=
    match l with
    | [] => []
    | (t, b) :: l' =>
        match grouped l' with
        | (t', b') :: r => if eqb b b' then (t ++ t', b) :: r else (t, b) :: (t', b') :: r
        | [] => [(t, b)]
        end
    end.
  Definition get_extracted_parts (r : combine_result) : option (list (text * bool)) :=
    match r_solution_info r with None => None | Some s => Some (grouped (extracted_parts s)) end.
End Combine.
Arguments combine_result : clear implicits.
