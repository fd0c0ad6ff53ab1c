(** C65 and C68 continued: what combining and evaluating report, from raw text.  The
    parser hypotheses of C60, C61 and C68 are discharged for every supported language.
    Specification vocabulary: as in [Properties_EndToEnd.v] and [Properties_Evaluate.v]. *)

From Coq Require Import String.
From Coq Require Import List Bool Arith Lia ZArith Sorted QArith Qcanon.
From Verif Require Import Base SeqNodes Transforms PackedSeq PackedSeqProofs Numbered Graph GatedDag PackedDag Convert MapDag Decisions ConstraintSpec ConstraintDag
  EditDag EditSpec EditTheorems EditReport EditReportProofs SelectionDag SelectionSpec SelectionProofs SelectionTheorems SelectionReport SelectionReportProofs SelectionVerdicts RegionDecisions RegionProofs Html
  Properties_Tree Properties_Edit Properties_Report SystemSpec BuildSystem BuildProofs BuildKeys Combine CombineSpec CombineProofs CombineStats CombinePaths CombineTheorems
  DualSolver PseudoParse CallSequence CallTheorems Properties_Calls Properties_EndToEnd Show ShowSpec ShowProofs ShowCalls Evaluation
  Subtokenizer ParserTools Properties_ParserTools Properties_Evaluate.
Import ListNotations.
Close Scope string_scope. Close Scope Qc_scope. Close Scope Q_scope. Close Scope Z_scope. Open Scope nat_scope. Open Scope list_scope.

(** ** C65.  The reported worth of a combined suggestion, and its statistics. *)
Theorem C65_worth_raw_text :
  forall (isupper islower isdigit isspace digit : nat -> bool) (l : helper_language) (flatten : bool)
         (P : parameters) (low exit : bool) (context : text) (samples : list text) (index : Z) (sample : text),
    ascii_digits digit -> isspace 10 = true -> parseable l context samples -> designates samples index sample ->
    let parse := parse_to_nodes isupper islower isdigit isspace digit l flatten in
    exists trees, (forall s, In s samples -> parse (context ++ s) = Ok (trees s) /\ render (trees s) = context ++ s) /\
    let prototype := prototype_of low exit context sample trees in
    render prototype = sample /\ (forall s, In s samples -> render (target_of context trees s) = s) /\
    forall fuel clock r, combine_samples fuel clock (edit_wrapper P low exit) parse context samples index = Some (Ok r) ->
      worth_reported (fun s => edit P (labelled prototype) (labelled (target_of context trees s))) (labelled prototype) samples r /\
      statistics_reported (fun s => edit P (labelled prototype) (labelled (target_of context trees s))) samples r.
Proof.
  intros u lo d sp digit l f P low exit context samples index sample H1 H2 H3 H4 parse.
  destruct (parseable_reads u lo d sp digit H1 H2 l f context samples H3) as [trees Ht]. exists trees.
  assert (Hr : forall s, In s samples -> reads parse (context ++ s) (trees s)) by (intros s Hs; now apply Ht).
  split; [intros s Hs; destruct (Hr s Hs) as [A [B _]]; auto|]. intros prototype.
  split; [eapply prototype_text; eauto|]. split; [intros s Hs; eapply target_text; eauto|].
  intros fuel clock r E. split.
  - now apply (C60_edit_utility P low exit parse context samples index sample trees fuel clock r Hr H4 E).
  - exact (C61_edit_statistics P low exit parse context samples index sample trees fuel clock r Hr H4 E).
Qed.
Print Assumptions C65_worth_raw_text.

Theorem C65_call_worth_raw_text :
  forall (isupper islower isdigit isspace digit : nat -> bool) (l : helper_language) (flatten : bool)
         (builtin : list text) (U : text -> text -> utilities) (context : text) (samples : list text) (index : Z) (sample : text),
    ascii_digits digit -> isspace 10 = true -> parseable l context samples -> designates samples index sample ->
    let parse := parse_to_named_nodes isupper islower isdigit isspace digit l flatten in
    exists trees, (forall s, In s samples -> parse (context ++ s) = Ok (trees s) /\ render (trees s) = context ++ s) /\
    let calls := calls_of isspace builtin context trees in
    forall fuel clock r, combine_samples fuel clock (call_wrapper isspace builtin U) parse context samples index = Some (Ok r) ->
      worth_reported (fun s => selection U (walks (labelled (calls sample))) (walks (labelled (strip_decision_nodes (calls s))))) (labelled (calls sample)) samples r /\
      statistics_reported (fun s => selection U (walks (labelled (calls sample))) (walks (labelled (strip_decision_nodes (calls s))))) samples r.
Proof.
  intros u lo d sp digit l f builtin U context samples index sample H1 H2 H3 H4 parse.
  destruct (parseable_reads u lo d sp digit H1 H2 l f context samples H3) as [trees Ht]. exists (fun s => map named (trees s)).
  assert (Hr : forall s, In s samples -> reads parse (context ++ s) ((fun s => map named (trees s)) s)) by (intros s Hs; now apply Ht).
  split; [intros s Hs; destruct (Hr s Hs) as [A [B _]]; auto|]. intros calls fuel clock r E. split.
  - exact (C60_call_utility sp builtin U parse context samples index sample _ fuel clock r Hr H4 E).
  - exact (C61_call_statistics sp builtin U parse context samples index sample _ fuel clock r Hr H4 E).
Qed.
Print Assumptions C65_call_worth_raw_text.
Example C65_worth_hypotheses : parseable (Parsed Python) (chars "x = ") [chars "f(1)"; chars "f(2)"] /\
  designates [chars "f(1)"; chars "f(2)"] 0 (chars "f(1)") /\ ascii_digits ex_dig /\ ex_spc 10 = true.
Proof. splits; [left; discriminate|exists 0; split; auto|apply classes_example|reflexivity]. Qed.

(** ** C68.  Evaluating a suggestion on the true continuation. *)
Theorem C68_edit_evaluation_raw_text :
  forall (isupper islower isdigit isspace digit : nat -> bool) (l : helper_language) (flatten : bool)
         (P : parameters) (low exit : bool) (context : text) (samples : list text) (index : Z) (sample truth : text) fuel clock r asg,
    ascii_digits digit -> isspace 10 = true -> parseable l context (truth :: samples) -> designates samples index sample ->
    let parse := parse_to_nodes isupper islower isdigit isspace digit l flatten in
    combine_samples fuel clock (edit_wrapper P low exit) parse context samples index = Some (Ok r) -> assignment_map r = Some asg ->
    exists prototype target, r_prototype r = pack prototype /\ render prototype = sample /\ render target = truth /\
    exists sy sol k metrics info ks,
      w_build (edit_wrapper P low exit) (r_prototype r) [pack target] = Ok sy /\ r_solution_info r = Some sol /\
      solution_info_evaluated (evaluate_edits (r_prototype r) (pack target) sy) (r_prototype r) asg (r_system r) =
        Ok (extracted_parts sol, (Fin k, metrics), info) /\
      least_cost (edit P (labelled prototype) (labelled target)) asg k /\
      csum (map (fun kind => value (metric (fst kind) (snd kind) "cost") metrics) (list_prod all_actions all_confs)) = Fin k /\
      (exists from to from' to', sample = from ++ from' /\ truth = to ++ to' /\
         measured [Keep; Delete; PrototypeDecoration] metrics = count (length from) /\ measured [Keep; Insert; TargetDecoration] metrics = count (length to) /\
         (~ (exists n, In ((n, ShouldEarlyExit), DTrue) asg) -> from' = [] /\ to' = [])) /\
      costs_unsorted (s_sample sol) = map Fin ks /\ costs_unsorted info = map Fin ks /\ cost_rank info = Some (below k ks).
Proof.
  intros u lo d sp digit l f P low exit context samples index sample truth fuel clock r asg H1 H2 H3 H4 parse E Ha.
  destruct (parseable_reads u lo d sp digit H1 H2 l f context (truth :: samples) H3) as [trees Ht].
  assert (Hr : forall s, In s (truth :: samples) -> reads parse (context ++ s) (trees s)) by (intros s Hs; now apply Ht).
  destruct (C68_edit_evaluation P low exit parse context samples index sample truth trees fuel clock r asg Hr H4 E Ha) as [A [B C]].
  exists (prototype_of low exit context sample trees), (target_of context trees truth). splits; auto.
  assert (Hr' : forall s, In s samples -> reads parse (context ++ s) (trees s)) by (intros s Hs; apply Hr; now right).
  now destruct (edit_spec P low exit parse context samples index sample trees Hr' H4 fuel clock r E) as [_ [S _]].
Qed.
Print Assumptions C68_edit_evaluation_raw_text.
