(** Model of what is shown of results: demo_runner.py:247-258 ([show_suggestion]),
    277-290 ([show_edits]), 292-302 ([show_utilities]), 338-381 ([show_token_probs]);
    [render_solution_html], [render_pairwise_matching_html] and [solution_info] with an
    evaluation target of both kinds of wrapper; and
    token_prob_align.py:230-251 ([render_tokens_and_log_probs_to_html]).

    Simplifications.  A function that displays HTML returns it; [None] stands for
    printing the message that there is no result (demo_runner.py:37).
    [show_utilities] takes the formatting of a rounded number as a parameter, and the
    background of a token takes the formatting of 100 times a probability. *)

From Coq Require Import String DecimalString.
From Coq Require Import List Bool Arith Lia ZArith QArith Qcanon.
From Verif Require Import Base SeqNodes Transforms PackedSeq Graph GatedDag PackedDag Convert Decisions ConstraintDag EditDag EditReport SelectionDag SelectionReport
  RegionDecisions Html TokenProb PseudoParse CallSequence DualSolver BuildSystem Combine.
Import ListNotations.
Close Scope string_scope. Close Scope Qc_scope. Close Scope Q_scope. Close Scope Z_scope. Open Scope nat_scope. Open Scope list_scope.

(** [str(i)] of a natural number. *)
Definition number_text (i : nat) : text := chars (NilZero.string_of_uint (Nat.to_uint i)).
Definition mono_span : text := chars "span style=""white-space: pre; font-family: monospace;""".
Definition context_span : text := chars "span style=""white-space: pre; font-family: monospace; color: #72A0C1;""".
(** edit_distance_wrapper_base.py:294 and call_sequence_wrapper.py:683. *)
Definition heading (i : nat) : text := chars "========== Target " ++ number_text i ++ chars " ==========<br>".
(** [for i, x in enumerate(l)], joined. *)
Fixpoint each {A} (f : nat -> A -> result text) (i : nat) (l : list A) : result text :=
  match l with [] => Ok [] | x :: l' => do t <- f i x; do r <- each f (S i) l'; Ok (t ++ r) end.

(** The edges of a path in the DAG for one target.  The first kind of information is
    that of the DAGs for targets; the other does not occur there.  The states may
    be of any type, since nothing below looks at them. *)
Definition target_edge {St I1 I2} (e : edge St decision (I1 + I2)) : result (edge St decision I1) :=
  match info e with
  | inl i => Ok (mkEdge (source e) (dest e) (ecost e) (assignment e) i)
  | inr _ => Err TypeError
  end.

(** ** Wrappers based on edits. *)
Section Edits.
  Context {M St : Type}.
  (** edit_distance_wrapper_base.py:248-266, [render_solution_html], with the default
      colours of region_decisions.py:198-200. *)
  Definition render_solution_html (prototype : storage M) (context_info : option text) (asg : assignments) : result text :=
    match context_info with
    | None => Err KeyError
    | Some prefix =>
        do regions <- render_regions_to_html prototype asg (chars "darkorange") (chars "orange") (chars "yellow");
        Ok (tag context_span ++ escape prefix ++ chars "</span>" ++ regions ++ chars "<br>")
    end.
  (** U+1360, edit_distance_wrapper_base.py:303. *)
  Definition editing_marker (show_start_editing_marker : bool) : text := if show_start_editing_marker then [4960] else [].
  (** edit_distance_wrapper_base.py:268-309, [render_pairwise_matching_html]. *)
  Definition render_pairwise_matching_html (marker : bool) (prototype : storage M) (targets : list (storage M)) (context_info : option text)
      (sy : @system St dkey dvalue (option einfo + cinfo)) (asg : assignments) : result text :=
    match context_info with
    | None => Err KeyError
    | Some prefix =>
        each (fun i (x : pdag * conversion * storage M) =>
                let '(d, c, target) := x in
                do r <- constrained_best_path d c asg;
                do path <- mapM target_edge (fst r);
                do html <- extract_edit_sequence_html path prototype target [] (editing_marker marker) [];
                Ok (heading i ++ tag mono_span ++ escape prefix ++ chars "</span>" ++ html ++ chars "<br>"))
          0 (combine (combine (map m_dag (removelast (tables (data sy)))) (conversion_data sy)) targets)
    end.
  (** edit_distance_wrapper_base.py:219-231, the part of [solution_info] about an
      evaluation target: the total cost and the metrics. *)
  Definition evaluate_edits (prototype target : storage M) (sy : @system St dkey dvalue (option einfo + cinfo)) (asg : assignments)
    : result (cost * list (text * cost)) :=
    match tables (data sy), conversion_data sy with
    | [m; _], c :: _ =>
        do r <- constrained_best_path (m_dag m) c asg;
        do path <- mapM target_edge (fst r);
        do metrics <- extract_edit_summary_metrics path prototype target;
        Ok (path_cost path, metrics)
    | [_; _], [] => Err IndexError
    | _, _ => Err AssertionError
    end.
End Edits.

(** ** Call sequences. *)
Section Calls.
  Context {St : Type}.
  (** call_sequence_wrapper.py:645-656, [render_solution_html]. *)
  Definition render_calls_html (prototype : storage text) (asg : assignments) : result text :=
    render_regions_to_html prototype asg (chars "darkorange") (chars "orange") (chars "yellow").
  (** call_sequence_wrapper.py:687-698, what is shown of a group. *)
  Definition show_group (g : sgroup) : text :=
    match sg_category g with
    | Some SelectMatched => chars "MATCHED: " ++ escape (joined (sg_tokens g)) ++ chars "<br>"
    | Some SelectUnmatched => chars "WRONG: " ++ escape (joined (sg_tokens g)) ++ chars "<br>"
    | _ => []
    end.
  (** call_sequence_wrapper.py:658-701, [render_pairwise_matching_html]. *)
  Definition render_pairwise_calls_html (prototype : storage text) (targets : list (storage text))
      (sy : @system St dkey dvalue (option sinfo + cinfo)) (asg : assignments) : result text :=
    each (fun i (x : pdag * conversion * storage text) =>
            let '(d, c, target) := x in
            do r <- constrained_best_path d c asg;
            do path <- mapM target_edge (fst r);
            do groups <- extract_match_groups path prototype target;
            Ok (heading i ++ tag mono_span ++ concat (map show_group groups) ++ chars "</span><br>"))
      0 (combine (combine (map m_dag (removelast (tables (data sy)))) (conversion_data sy)) targets).

  (** call_sequence_wrapper.py:577-582: the counters. *)
  Record counters := mkCounters {
    correct_novel : nat; correct_not_novel : nat; correct_args : nat;
    deleted_novel : nat; deleted_not_novel : nat; deleted_args : nat }.
  Definition no_counts : counters := mkCounters 0 0 0 0 0 0.
  (** call_sequence_wrapper.py:596-617, for a token of the prototype. *)
  Definition count_token (category : scategory) (match_type : text) (k : counters) : counters :=
    let '(mkCounters cn ce ca dn de da) := k in
    match category with
    | SelectMatched =>
        if eqb match_type NOVEL then mkCounters (S cn) ce ca dn de da
        else if eqb match_type EXPECTED then mkCounters cn (S ce) ca dn de da
        else if eqb match_type ARGS then mkCounters cn ce (S ca) dn de da else k
    | SelectUnmatched =>
        if eqb match_type NOVEL then mkCounters cn ce ca (S dn) de da
        else if eqb match_type EXPECTED then mkCounters cn ce ca dn (S de) da
        else if eqb match_type ARGS then mkCounters cn ce ca dn de (S da) else k
    | _ => k
    end.
  (** call_sequence_wrapper.py:583-617, the loop. *)
  Fixpoint count_path (prototype : storage text) (k : counters) (path : list (edge St decision (option sinfo))) : result counters :=
    match path with
    | [] => Ok k
    | e :: path' =>
        do k' <- match info e with
                 | None => Ok k
                 | Some f =>
                     match s_proto f with
                     | None => Ok k
                     | Some i =>
                         do x <- lookup (preorder_traversal prototype) (Some i);
                         match cat x with
                         | CToken => do y <- lookup (tokens prototype) (idx x); Ok (count_token (s_category f) (snd y) k)
                         | _ => Ok k
                         end
                     end
                 end;
        count_path prototype k' path'
    end.
  (** call_sequence_wrapper.py:566-626, the part of [solution_info] about an
      evaluation target, which only decides whether it is done. *)
  Definition evaluate_calls (prototype : storage text) (sy : @system St dkey dvalue (option sinfo + cinfo)) (asg : assignments)
    : result (cost * counters) :=
    match tables (data sy), conversion_data sy with
    | [m; _], c :: _ =>
        do r <- constrained_best_path (m_dag m) c asg;
        do path <- mapM target_edge (fst r);
        do k <- count_path prototype no_counts path;
        Ok (path_cost path, k)
    | [_; _], [] => Err IndexError
    | _, _ => Err AssertionError
    end.
End Calls.

(** edit_distance_wrapper_base.py:196-246 and call_sequence_wrapper.py:541-643,
    [solution_info] with an evaluation target and a sample system: the parts, what
    [evaluate] says of the target, and the statistics with the rank of the total
    cost among the samples. *)
Definition solution_info_evaluated {M St In A} (evaluate : assignments -> result (cost * A)) (prototype : storage M) (asg : assignments)
    (sample_system : @system St dkey dvalue In) : result (list (text * bool) * (cost * A) * sample_info) :=
  let '(parts, e) := extract_sequence_with_regions prototype asg [] in
  match e with
  | Some err => Err err
  | None =>
      do x <- evaluate asg;
      do s <- compute_sample_system_info (map m_dag (removelast (tables (data sample_system)))) (removelast (conversion_data sample_system)) asg (Some (fst x));
      Ok (parts, x, s)
  end.

(** ** demo_runner.py *)
(** Lines 247-258, [show_suggestion]. *)
Definition show_suggestion {M} (render : storage M -> option text -> assignments -> result text)
    (prototype : storage M) (context_info : option text) (asg : option assignments) : result (option text) :=
  match asg with None => Ok None | Some a => do html <- render prototype context_info a; Ok (Some html) end.
(** Lines 277-290, [show_edits]. *)
Definition show_edits {M St In} (render : storage M -> list (storage M) -> option text -> @system St dkey dvalue In -> assignments -> result text)
    (r : combine_result M St In) : result (option text) :=
  match assignment_map r with
  | None => Ok None
  | Some asg => do html <- render (r_prototype r) (r_targets r) (r_context_info r) (r_system r) asg; Ok (Some html)
  end.
(** Lines 292-302, [show_utilities]: the printed lines.  Subscripting [None] is a
    TypeError. *)
Definition show_utilities {M St In} (rounded : cost -> text) (r : combine_result M St In) : result (option (list text)) :=
  match assignment_map r with
  | None => Ok None
  | Some _ =>
      match r_solution_info r with
      | None => Err TypeError
      | Some sol =>
          Ok (Some (map (fun x => chars "Target " ++ number_text (fst x) ++ chars ": " ++ rounded (cneg (snd x)))
                      (combine (seq 0 (length (costs_unsorted (s_sample sol)))) (costs_unsorted (s_sample sol)))))
      end
  end.

(** token_prob_align.py:230-251. *)
Definition probs_span : text := chars "span style=""white-space: pre; font-family: monospace; font-weight: bold""".
Definition colour_span (percent : Qc -> text) (log_prob : Qc) : text :=
  chars "span style=""background-color: rgb(100.0%, " ++ percent log_prob ++ chars "%, " ++ percent log_prob ++ chars "%)""".
(** [token.replace] of a newline by U+21A9 and the newline. *)
Definition with_arrows (t : text) : text := replace 10 [8617; 10] t.
Definition render_tokens_and_log_probs_to_html (percent : Qc -> text) (l : list (text * Qc)) : text :=
  tag probs_span ++
  concat (map (fun x => tag (colour_span percent (snd x)) ++ escape (with_arrows (fst x)) ++ chars "</span>") l) ++
  chars "</span>".
(** demo_runner.py:338-381, [show_token_probs]. *)
Definition show_token_probs {M} (percent : Qc -> text) (parse : text -> result (list (node M))) (context : text) (parts : list (text * Qc))
    (parse_and_realign : bool) : result text :=
  do parts' <- (if parse_and_realign then
                  do ns <- parse (context ++ concat (map fst parts));
                  let packed := pack (truncate_prefix_at_offset ns (Z.of_nat (length context))) in
                  do aligned <- align_token_log_probs parts packed false;
                  flatten_token_log_probs_from_parsed packed aligned
                else Ok parts);
  Ok (tag mono_span ++ escape context ++ chars "</span>" ++ render_tokens_and_log_probs_to_html percent parts').
