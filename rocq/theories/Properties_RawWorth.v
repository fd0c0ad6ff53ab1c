(** C81 to C87 continued: what is reported about combined suggestions, from raw text.
    The parser hypotheses are discharged for every supported language, so nothing but
    the texts, the prices and the reported numbers is left in the statements.
    Specification vocabulary: [dearer], [scaled] in [PriceProofs.v], [copies] in
    [Properties_Order.v], [number] in [UtilityBounds.v], [dearer_tokens] in
    [Properties_CallPrices.v]. *)

From Coq Require Import String.
From Coq Require Import List Bool Arith Lia ZArith Sorted Permutation QArith Qcanon.
From Verif Require Import Base SeqNodes Transforms PackedSeq PackedSeqProofs Numbered Graph GatedDag PackedDag Convert Decisions ConstraintSpec ConstraintDag
  EditDag EditSpec EditTheorems SelectionDag SelectionSpec RegionDecisions Html CostDerivation
  Properties_Tree Properties_Edit SystemSpec BuildSystem BuildProofs Combine CombineSpec CombineProofs CombineTheorems
  PseudoParse CallSequence CallTheorems Properties_Calls Properties_EndToEnd Subtokenizer ParserTools Properties_ParserTools
  UtilityBounds PriceProofs Properties_Bounds Properties_Options Properties_Prices Properties_Order CallWorth Properties_CallWorth Properties_CallPrices.
Import ListNotations.
Close Scope string_scope. Close Scope Qc_scope. Close Scope Q_scope. Close Scope Z_scope. Open Scope nat_scope. Open Scope list_scope.

(** ** C81.  With derived prices a suggestion is reported to be worth at most one per
    character of the chosen sample, in every language. *)
Theorem C81_raw_text :
  forall (isupper islower isdigit isspace digit : nat -> bool) (l : helper_language) (flatten : bool)
         (precision start sensitivity : Qc) (low exit : bool) (context : text) (samples : list text) (index : Z) (sample : text) fuel clock r asg,
    ascii_digits digit -> isspace 10 = true -> parseable l context samples -> designates samples index sample ->
    (0 <= precision <= 1)%Qc -> (0 <= sensitivity <= 1)%Qc -> (0 <= start)%Qc ->
    combine_samples fuel clock (edit_wrapper (derive_uncertainty_region_costs precision start sensitivity) low exit)
      (parse_to_nodes isupper islower isdigit isspace digit l flatten) context samples index = Some (Ok r) -> assignment_map r = Some asg ->
    exists v u, solution_utility r = Fin v /\ utility_dual_bound r = Fin u /\ (v <= u)%Qc /\ (v <= number (length sample))%Qc.
Proof.
  intros up lo d sp digit l f p c s low exit context samples index sample fuel clock r asg H1 H2 H3 H4 Hp Hs Hc E Ha.
  destruct (parseable_reads up lo d sp digit H1 H2 l f context samples H3) as [trees Ht].
  destruct (C81_reported_utility _ low exit _ context samples index sample trees fuel clock r asg (fun s Hs => proj1 (Ht s Hs)) H4 E Ha) as [T (v & u & Hv & Hu & Hle & B & _)].
  exists v, u. splits; auto. destruct (C81_derived_costs_are_sensible p c s Hp Hs Hc) as [S G]. specialize (B S). rewrite G in B.
  eapply Qcle_trans; [exact B|]. rewrite Qcmult_1_l. now apply number_le.
Qed.

(** ** C83.  Offering regions or exits never lowers what can be reported. *)
Theorem C83_raw_text :
  forall (isupper islower isdigit isspace digit : nat -> bool) (l : helper_language) (flatten : bool)
         (P : parameters) (low low' exit exit' : bool) (context : text) (samples : list text) (index : Z) (sample : text) fuel fuel' clock clock' r r' asg asg',
    ascii_digits digit -> isspace 10 = true -> parseable l context samples -> designates samples index sample ->
    (low = true -> low' = true) -> (exit = true -> exit' = true) ->
    let parse := parse_to_nodes isupper islower isdigit isspace digit l flatten in
    combine_samples fuel clock (edit_wrapper P low exit) parse context samples index = Some (Ok r) -> assignment_map r = Some asg ->
    combine_samples fuel' clock' (edit_wrapper P low' exit') parse context samples index = Some (Ok r') -> assignment_map r' = Some asg' ->
    exists v v' u', solution_utility r = Fin v /\ solution_utility r' = Fin v' /\ utility_dual_bound r' = Fin u' /\ (v <= u')%Qc /\ (v' = u' -> (v <= v')%Qc).
Proof.
  intros up lo d sp digit l f P low low' exit exit' context samples index sample fuel fuel' clock clock' r r' asg asg' H1 H2 H3 H4 Hl He parse E Ha E' Ha'.
  destruct (parseable_reads up lo d sp digit H1 H2 l f context samples H3) as [trees Ht].
  exact (C83_reported_utility P low low' exit exit' parse context samples index sample trees fuel fuel' clock clock' r r' asg asg' (fun s Hs => proj1 (Ht s Hs)) H4 Hl He E Ha E' Ha').
Qed.

(** ** C84.  Dearer prices never raise it. *)
Theorem C84_raw_text :
  forall (isupper islower isdigit isspace digit : nat -> bool) (l : helper_language) (flatten : bool)
         (P P' : parameters) (low exit : bool) (context : text) (samples : list text) (index : Z) (sample : text) fuel fuel' clock clock' r r' asg asg',
    ascii_digits digit -> isspace 10 = true -> parseable l context samples -> designates samples index sample -> dearer P P' ->
    let parse := parse_to_nodes isupper islower isdigit isspace digit l flatten in
    combine_samples fuel clock (edit_wrapper P low exit) parse context samples index = Some (Ok r) -> assignment_map r = Some asg ->
    combine_samples fuel' clock' (edit_wrapper P' low exit) parse context samples index = Some (Ok r') -> assignment_map r' = Some asg' ->
    exists u v', utility_dual_bound r = Fin u /\ solution_utility r' = Fin v' /\ (v' <= u)%Qc.
Proof.
  intros up lo d sp digit l f P P' low exit context samples index sample fuel fuel' clock clock' r r' asg asg' H1 H2 H3 H4 D parse E Ha E' Ha'.
  destruct (parseable_reads up lo d sp digit H1 H2 l f context samples H3) as [trees Ht].
  exact (C84_reported_dearer P P' low exit parse context samples index sample trees fuel fuel' clock clock' r r' asg asg' D (fun s Hs => proj1 (Ht s Hs)) H4 E Ha E' Ha').
Qed.

(** ** C85.  The order of the samples and repeating all of them do not matter, for edits
    and for calls. *)
Theorem C85_raw_text :
  forall (isupper islower isdigit isspace digit : nat -> bool) (l : helper_language) (flatten : bool)
         (P : parameters) (low exit : bool) (context : text) (samples samples' : list text) (n : nat) (index index' : Z) (sample : text) fuel fuel' clock clock' r r' asg asg',
    ascii_digits digit -> isspace 10 = true -> parseable l context samples -> designates samples index sample ->
    1 <= n -> Permutation samples' (copies n samples) -> designates samples' index' sample ->
    let parse := parse_to_nodes isupper islower isdigit isspace digit l flatten in
    combine_samples fuel clock (edit_wrapper P low exit) parse context samples index = Some (Ok r) -> assignment_map r = Some asg ->
    combine_samples fuel' clock' (edit_wrapper P low exit) parse context samples' index' = Some (Ok r') -> assignment_map r' = Some asg' ->
    exists v u v' u', solution_utility r = Fin v /\ utility_dual_bound r = Fin u /\ solution_utility r' = Fin v' /\ utility_dual_bound r' = Fin u' /\
      (v <= u')%Qc /\ (v' <= u)%Qc /\ (v = u -> v' = u' -> v = v').
Proof.
  intros up lo d sp digit l f P low exit context samples samples' n index index' sample fuel fuel' clock clock' r r' asg asg' H1 H2 H3 H4 Hn Hp H5 parse E Ha E' Ha'.
  destruct (parseable_reads up lo d sp digit H1 H2 l f context samples H3) as [trees Ht].
  exact (C85_edit_order P low exit parse context samples samples' n index index' sample trees fuel fuel' clock clock' r r' asg asg' Hn Hp H4 H5 (fun s Hs => proj1 (Ht s Hs)) E Ha E' Ha').
Qed.
Theorem C85_calls_raw_text :
  forall (isupper islower isdigit isspace digit : nat -> bool) (l : helper_language) (flatten : bool)
         (builtin : list text) (U : text -> text -> utilities) (context : text) (samples samples' : list text) (n : nat) (index index' : Z) (sample : text) fuel fuel' clock clock' r r' asg asg',
    ascii_digits digit -> isspace 10 = true -> parseable l context samples -> designates samples index sample ->
    1 <= n -> Permutation samples' (copies n samples) -> designates samples' index' sample ->
    let parse := parse_to_named_nodes isupper islower isdigit isspace digit l flatten in
    combine_samples fuel clock (call_wrapper isspace builtin U) parse context samples index = Some (Ok r) -> assignment_map r = Some asg ->
    combine_samples fuel' clock' (call_wrapper isspace builtin U) parse context samples' index' = Some (Ok r') -> assignment_map r' = Some asg' ->
    exists v u v' u', solution_utility r = Fin v /\ utility_dual_bound r = Fin u /\ solution_utility r' = Fin v' /\ utility_dual_bound r' = Fin u' /\
      (v <= u')%Qc /\ (v' <= u)%Qc /\ (v = u -> v' = u' -> v = v').
Proof.
  intros up lo d sp digit l f builtin U context samples samples' n index index' sample fuel fuel' clock clock' r r' asg asg' H1 H2 H3 H4 Hn Hp H5 parse E Ha E' Ha'.
  destruct (parseable_reads up lo d sp digit H1 H2 l f context samples H3) as [trees Ht].
  exact (C85_call_order sp builtin U parse context samples samples' n index index' sample (fun s => map named (trees s)) fuel fuel' clock clock' r r' asg asg' Hn Hp H4 H5 (fun s Hs => proj2 (Ht s Hs)) E Ha E' Ha').
Qed.

(** ** C86, C87.  The bound reported for calls is never negative; a higher effective
    precision never raises what is reported. *)
Theorem C86_calls_raw_text :
  forall (isupper islower isdigit isspace digit : nat -> bool) (l : helper_language) (flatten : bool)
         (builtin : list text) (U : text -> text -> utilities) (context : text) (samples : list text) (index : Z) (sample : text) fuel clock r asg,
    ascii_digits digit -> isspace 10 = true -> parseable l context samples -> designates samples index sample ->
    combine_samples fuel clock (call_wrapper isspace builtin U) (parse_to_named_nodes isupper islower isdigit isspace digit l flatten) context samples index = Some (Ok r) ->
    assignment_map r = Some asg ->
    exists v u, solution_utility r = Fin v /\ utility_dual_bound r = Fin u /\ (v <= u)%Qc /\ (0 <= u)%Qc.
Proof.
  intros up lo d sp digit l f builtin U context samples index sample fuel clock r asg H1 H2 H3 H4 E Ha.
  destruct (parseable_reads up lo d sp digit H1 H2 l f context samples H3) as [trees Ht].
  destruct (C86_reported_call_worth sp builtin U _ context samples index sample (fun s => map named (trees s)) fuel clock r asg (fun s Hs => proj2 (Ht s Hs)) H4 E Ha) as (v & u & Hv & Hu & A & B & _).
  exists v, u. splits; auto.
Qed.
Theorem C87_calls_raw_text :
  forall (isupper islower isdigit isspace digit : nat -> bool) (l : helper_language) (flatten : bool)
         (builtin : list text) (precision precision' : Qc) (context : text) (samples : list text) (index : Z) (sample : text) fuel fuel' clock clock' r r' asg asg',
    ascii_digits digit -> isspace 10 = true -> parseable l context samples -> designates samples index sample -> (precision <= precision')%Qc ->
    let run fuel clock p := combine_samples fuel clock (call_wrapper isspace builtin (call_utilities p)) (parse_to_named_nodes isupper islower isdigit isspace digit l flatten) context samples index in
    run fuel clock precision = Some (Ok r) -> assignment_map r = Some asg ->
    run fuel' clock' precision' = Some (Ok r') -> assignment_map r' = Some asg' ->
    exists u v', utility_dual_bound r = Fin u /\ solution_utility r' = Fin v' /\ (v' <= u)%Qc.
Proof.
  intros up lo d sp digit l f builtin p p' context samples index sample fuel fuel' clock clock' r r' asg asg' H1 H2 H3 H4 Hp run E Ha E' Ha'.
  destruct (parseable_reads up lo d sp digit H1 H2 l f context samples H3) as [trees Ht].
  exact (C87_reported_dearer sp builtin _ _ _ context samples index sample (fun s => map named (trees s)) fuel fuel' clock clock' r r' asg asg' (C87_higher_precision_is_dearer p p' Hp)
           (fun s Hs => proj2 (Ht s Hs)) H4 E Ha E' Ha').
Qed.

(** "f()" suggested for itself and for "g()", after a line with "x", in Python, at an
    effective precision of one quarter and of one half. *)
Example C87_raw_hypotheses : parseable (Parsed Python) (chars "x" ++ [10]) [chars "f()"; chars "g()"] /\
  designates [chars "f()"; chars "g()"] 0 (chars "f()") /\ ascii_digits ex_dig /\ ex_spc 10 = true /\ (Q2Qc (1 # 4) <= Q2Qc (1 # 2))%Qc.
Proof. splits; [left; discriminate|exists 0; split; auto|apply classes_example|reflexivity|discriminate]. Qed.
Example C87_raw_example :
  let run p := match combine_samples 100 (fun _ => false) (call_wrapper ex_spc [] (call_utilities p)) (parse_to_named_nodes ex_up ex_low ex_dig ex_spc ex_dig (Parsed Python) false)
      (chars "x" ++ [10]) [chars "f()"; chars "g()"] 0 with
    | Some (Ok r) => match assignment_map r with Some _ => Some (solution_utility r, utility_dual_bound r) | None => None end | _ => None end in
  (run (Q2Qc (1 # 4)), run (Q2Qc (1 # 2))) = (Some (Fin (Q2Qc (11 # 4)), Fin (Q2Qc (11 # 4))), Some (Fin 0%Qc, Fin 0%Qc)).
Proof. vm_compute. reflexivity. Qed.
Print Assumptions C81_raw_text.
Print Assumptions C83_raw_text.
Print Assumptions C84_raw_text.
Print Assumptions C85_raw_text.
Print Assumptions C85_calls_raw_text.
Print Assumptions C86_calls_raw_text.
Print Assumptions C87_calls_raw_text.
