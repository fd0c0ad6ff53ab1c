(** Model of r_u_sure/wrappers/demo_runner.py:52-60 and 185-245 ([BaselineResult],
    [build_baselines]) and of the configuration of the prefix baselines,
    prefix_truncation_wrapper.py:145-227.

    Simplifications.  [parse] stands for [parser_helper.parse_to_nodes].  Where a
    wrapper solves systems (uncertainty_regions_wrapper.py), the outcome [None] stands
    for a solver that is still running; it is not a return value.  The keys of the
    dictionaries, formatted strings in Python, are values of a type.  The dictionary
    [solution_info] has only the extracted parts, as no system is given. *)

From Coq Require Import List Bool Arith ZArith QArith Qcanon.
From Verif Require Import Base SeqNodes Transforms PackedSeq Decisions TokenProb RegionDecisions PrefixBaselines RegionBaselines PseudoParse
  EditDag CallSequence Combine.
Import ListNotations.
Close Scope Qc_scope. Close Scope Q_scope. Close Scope Z_scope. Open Scope nat_scope.

(** ** prefix_truncation_wrapper.py *)
(** The names of lines 172-204. *)
Inductive prefix_baseline :=
| ProbThreshold (threshold : Qc)
| PrefixProbThreshold (threshold : Qc)
| Intellicode
| MaxAvgLogProb
| CharacterLength (most : nat)
| LineLength (most : nat).
#[export] Instance EqDec_prefix_baseline : EqDec prefix_baseline.
Proof. intros x y. decide equality; apply eq_dec. Defined.

(** Lines 49-74, the configuration. *)
Record prefix_config := mkPrefixConfig {
  also_insert_uncertainty_regions : bool;
  token_prob_thresholds : list Qc;
  prefix_prob_thresholds : list Qc;
  max_avg_log_prob : bool;
  intellicode : bool;
  max_characters : list nat;
  max_lines : list nat
}.
(** Lines 170-204: what is asked for, in order. *)
Definition prefix_baselines (cfg : prefix_config) : list prefix_baseline :=
  map ProbThreshold (token_prob_thresholds cfg) ++ map PrefixProbThreshold (prefix_prob_thresholds cfg) ++
  (if intellicode cfg then [Intellicode] else []) ++ (if max_avg_log_prob cfg then [MaxAvgLogProb] else []) ++
  map CharacterLength (max_characters cfg) ++ map LineLength (max_lines cfg).

(** [results[key] = value], repeated. *)
Fixpoint collect {K V} `{EqDec K} (build : K -> result V) (todo : list K) (results : list (K * V)) : result (list (K * V)) :=
  match todo with
  | [] => Ok results
  | k :: todo' => do v <- build k; collect build todo' (dict_set k v results)
  end.
Section Prefix.
  Context {M : Type}.
  (** [low x t] is [math.exp(x) < t] and [low_at n x] is
      [math.exp(x) < alpha / (1 + math.exp(-n / kappa))]. *)
  Context (low : Qc -> Qc -> bool) (low_at : nat -> Qc -> bool).
  (** Lines 170-204: one baseline. *)
  Definition prefix_assignment (S : storage M) (aligned : list (nat * Qc)) (b : prefix_baseline) : result assignments :=
    match b with
    | ProbThreshold t => baseline_from_token_prob (fun x => low x t) false S aligned
    | PrefixProbThreshold t => baseline_from_token_prob (fun x => low x t) true S aligned
    | Intellicode => baseline_from_intellicode low_at S aligned
    | MaxAvgLogProb => baseline_from_max_average_log_prob S aligned
    | CharacterLength n => baseline_from_characters n S
    | LineLength n => baseline_from_lines n S
    end.
  (** Lines 145-205, [build_baseline_assignments]; the builder aligns the log
      probabilities when it is made (211-227). *)
  Definition build_prefix_baselines (cfg : prefix_config) (prototype : storage M) (model_tokens : list (text * Qc))
    : result (list (prefix_baseline * assignments)) :=
    if also_insert_uncertainty_regions cfg then Ok []
    else do aligned <- align_token_log_probs model_tokens prototype false;
         collect (prefix_assignment prototype aligned) (prefix_baselines cfg) [].
End Prefix.

(** ** call_sequence_wrapper.py:488-494: the dictionary of the three baselines. *)
Inductive call_baseline := AllCallsFull | AllCallsShorter | NovelCallsShorter.
Definition build_call_baselines (prototype : storage text) : result (list (call_baseline * assignments)) :=
  do b <- CallSequence.build_baseline_assignments prototype;
  Ok [(AllCallsFull, all_calls_full b); (AllCallsShorter, all_calls_shorter b); (NovelCallsShorter, novel_calls_shorter b)].

(** ** demo_runner.py *)
Section Run.
  Context {M K St In : Type}.
  (** Lines 52-60. *)
  Record baseline_result := mkBaselineResult {
    b_context_info : option text;
    b_prototype : storage M;
    b_prototype_as_target : storage M;
    b_assignment_map : assignments;
    b_extracted_parts : list (text * bool)
  }.
  (** edit_distance_wrapper_base.py:196-255 and call_sequence_wrapper.py:541-643,
      [solution_info], with neither a system nor a sample system. *)
  Definition extracted_only (prototype : storage M) (asg : assignments) : result (list (text * bool)) :=
    match extract_sequence_with_regions prototype asg [] with (_, Some e) => Err e | (parts, None) => Ok parts end.
  (** Lines 226-244: the loop over the baselines; the keys are distinct already. *)
  Fixpoint collect_results (info : option text) (prototype target : storage M) (l : list (K * assignments)) : result (list (K * baseline_result)) :=
    match l with
    | [] => Ok []
    | (k, asg) :: l' =>
        do parts <- extracted_only prototype asg;
        do rest <- collect_results info prototype target l';
        Ok ((k, mkBaselineResult info prototype target asg parts) :: rest)
    end.
  (** Lines 185-245.  [build] is the wrapper's [build_baseline_assignments]. *)
  Definition build_baselines (w : wrapper M St In) (build : storage M -> storage M -> list (text * Qc) -> option (result (list (K * assignments))))
      (parse : text -> result (list (node M))) (context : text) (parts : list (text * Qc)) : option (result (list (K * baseline_result))) :=
    match parse (context ++ concat (map fst parts)) with
    | Err e => Some (Err e)
    | Ok nodes =>
        let (prototype, info) := w_prototype w nodes (length context) in
        let target := w_target w nodes (length context) in
        match build prototype target parts with
        | None => None
        | Some (Err e) => Some (Err e)
        | Some (Ok l) => Some (collect_results info prototype target l)
        end
    end.
End Run.
Arguments baseline_result : clear implicits.

(** The three wrappers. *)
Definition run_prefix_baselines (P : parameters) (low : Qc -> Qc -> bool) (low_at : nat -> Qc -> bool) (cfg : prefix_config)
    (parse : text -> result (list (node mtype))) (context : text) (parts : list (text * Qc)) :=
  build_baselines (edit_wrapper P (also_insert_uncertainty_regions cfg) true)
    (fun prototype _ toks => Some (build_prefix_baselines low low_at cfg prototype toks)) parse context parts.
Definition run_region_baselines (P : parameters) (fuel : nat) (clocks : nat -> nat -> bool) (low : Qc -> Qc -> bool)
    (thresholds fractions : list Qc) (cutoffs : list (Z * Z))
    (parse : text -> result (list (node mtype))) (context : text) (parts : list (text * Qc)) :=
  build_baselines (edit_wrapper P true false)
    (fun prototype target toks => RegionBaselines.build_baseline_assignments P fuel clocks low thresholds fractions cutoffs prototype target toks)
    parse context parts.
Definition run_call_baselines (isspace : nat -> bool) (builtin : list text) (U : text -> text -> SelectionDag.utilities)
    (parse : text -> result (list (node text))) (context : text) (parts : list (text * Qc)) :=
  build_baselines (call_wrapper isspace builtin U) (fun prototype _ _ => Some (build_call_baselines prototype)) parse context parts.
