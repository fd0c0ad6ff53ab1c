(** C51, C66 and C88 continued: for every text that is not Python the call baselines
    need no condition on white space.  Specification vocabulary: [spaced] in
    [CallTheorems.v], [call_shows] in [Properties_RunBaselines.v], [beaten] in
    [Properties_NoBaseline.v]. *)

From Coq Require Import String.
From Coq Require Import List Bool Arith Lia ZArith Sorted QArith Qcanon.
From Verif Require Import Base SeqNodes Transforms PackedSeq PackedSeqProofs Numbered Graph GatedDag PackedDag Convert Decisions ConstraintSpec ConstraintDag
  TokenProb PseudoParse EditDag EditSpec EditTheorems SelectionDag SelectionSpec SelectionTheorems RegionDecisions RegionProofs PrefixBaselines PrefixTheorems Html CallSequence CallSpec CallProofs CallBaselines CallTheorems
  Properties_Tree Properties_Regions Properties_Calls Properties_Edit Properties_Baselines SystemSpec BuildSystem BuildKeys DualSolver Combine CombineSpec CombineStats CombineProofs CombineTheorems
  Properties_EndToEnd RegionBaselines RegionBaselineProofs RegionBaselineSolve Properties_RegionBaselines Lexer ParserTools Properties_ParserTools
  RunBaselines RunBaselineProofs Properties_RunBaselines Properties_NoBaseline Properties_RawBaselines BlankProofs.
Import ListNotations.
Close Scope string_scope. Close Scope Qc_scope. Close Scope Q_scope. Close Scope Z_scope. Open Scope nat_scope. Open Scope list_scope.

(** Every tree read from C++, Java, JavaScript, plain or raw text has only white space
    in front of groups, whatever the text and whatever counts as white space. *)
Theorem C51_trees_are_spaced :
  forall (isupper islower isdigit isspace digit : nat -> bool) (l : helper_language) (flatten : bool) (code : text) ns,
    ascii_digits digit -> l <> Parsed Python ->
    parse_to_named_nodes isupper islower isdigit isspace digit l flatten code = Ok ns -> spaced isspace ns.
Proof.
  intros up lo d sp digit l f code ns H1 H2 E. apply (direct_spaced up lo d sp digit (ascii_digits_eq digit H1) l f code ns); auto.
  destruct l as [|[|p]]; [left; reflexivity|contradiction|right; now exists p].
Qed.
(** So running the call baselines never fails there, and they show what they should. *)
Theorem C66_call_baselines_raw_text :
  forall (isupper islower isdigit isspace digit : nat -> bool) (l : helper_language) (flatten : bool)
         (builtin : list text) (U : text -> text -> utilities) (context : text) (parts : list (text * Qc)),
    ascii_digits digit -> isspace 10 = true -> l <> Parsed Python ->
    let parse := parse_to_named_nodes isupper islower isdigit isspace digit l flatten in
    exists ns seqs results,
      reads parse (context ++ concat (map fst parts)) ns /\
      make_callseq_tree isspace builtin ns (length context) = flat_map (fun seq => [Group seq (chars "API_CALL"); Deco [10]]) seqs /\
      run_call_baselines isspace builtin U parse context parts = Some (Ok results) /\
      map fst results = [AllCallsFull; AllCallsShorter; NovelCallsShorter] /\
      forall b r, In (b, r) results -> b_prototype r = pack (make_callseq_tree isspace builtin ns (length context)) /\
        shows (call_shows b) seqs (b_extracted_parts r) /\
        exists ds, region_choice (labelled (make_callseq_tree isspace builtin ns (length context))) ds /\ satisfies_constraints (b_assignment_map r) ds.
Proof.
  intros up lo d sp digit l f builtin U context parts H1 H2 H3 parse.
  destruct (C64_helper_reads_every_text up lo d sp digit l f (context ++ concat (map fst parts)) H1 H2) as [ns [_ R]]; [contradiction|].
  destruct R as [E R]. exists (map named ns).
  destruct (C66_call_baselines sp builtin U parse context parts (map named ns) E) as [seqs [results H]].
  { eapply C51_trees_are_spaced; eauto. }
  exists seqs, results. destruct H as (A & B & C & D). splits; auto. split; auto.
Qed.
(** And no call baseline beats the combined suggestion. *)
Theorem C88_call_baselines_direct_text :
  forall (isupper islower isdigit isspace digit : nat -> bool) (l : helper_language) (flatten : bool)
         (builtin : list text) (U U' : text -> text -> utilities) (context : text) (samples : list text) (index : Z)
         (parts : list (text * Qc)) fuel clock r asg,
    ascii_digits digit -> isspace 10 = true -> l <> Parsed Python -> designates samples index (concat (map fst parts)) ->
    let parse := parse_to_named_nodes isupper islower isdigit isspace digit l flatten in
    combine_samples fuel clock (call_wrapper isspace builtin U) parse context samples index = Some (Ok r) -> assignment_map r = Some asg ->
    exists results trees,
    run_call_baselines isspace builtin U' parse context parts = Some (Ok results) /\ map fst results = [AllCallsFull; AllCallsShorter; NovelCallsShorter] /\
    (forall s, In s samples -> parse (context ++ s) = Ok (trees s)) /\
    forall b br, In (b, br) results ->
    b_prototype br = r_prototype r /\
      let calls := calls_of isspace builtin context trees in
      (exists choice, region_choice (labelled (calls (concat (map fst parts)))) choice /\ satisfies_constraints (b_assignment_map br) choice) /\
      forall choice, region_choice (labelled (calls (concat (map fst parts)))) choice -> satisfies_constraints (b_assignment_map br) choice ->
        beaten (fun s => selection U (walks (labelled (calls (concat (map fst parts))))) (walks (labelled (strip_decision_nodes (calls s))))) samples choice r.
Proof.
  intros up lo d sp digit l f builtin U U' context samples index parts fuel clock r asg H1 H2 H3 H4 parse E Ha.
  destruct (C66_call_baselines_raw_text up lo d sp digit l f builtin U' context parts H1 H2 H3) as (ns & seqs & results & _ & _ & R1 & R2 & _).
  destruct (parseable_reads up lo d sp digit H1 H2 l f context samples ltac:(intros C; contradiction)) as [trees Ht].
  assert (Hs : In (concat (map fst parts)) samples) by (destruct H4 as [j [Hj _]]; eapply nth_error_In; eauto).
  exists results, (fun s => map named (trees s)). splits; auto; [intros s Hs'; apply (Ht s Hs')|].
  intros b br Hi.
  apply (C88_call_baselines sp builtin U U' parse context samples index parts (fun s => map named (trees s)) fuel clock r asg results b br (fun s Hs => proj2 (Ht s Hs)) H4); auto.
  eapply C51_trees_are_spaced; eauto. apply (proj2 (Ht _ Hs)).
Qed.

(** C++ with an unclosed brace, a stray bracket and a call. *)
Definition ex_direct_parts : list (text * Qc) := [(chars "y = f(1", Q2Qc (-1)); (chars ")]; {", Q2Qc (-2))].
Definition ex_small_parts : list (text * Qc) := [(chars "f()", Q2Qc (-1))].
Example C66_direct_example :
  match run_call_baselines ex_spc [] (call_utilities (Q2Qc (1 # 2))) (parse_to_named_nodes ex_up ex_low ex_dig ex_spc ex_dig (Parsed (Direct Cpp)) false) (chars "x" ++ [10]) ex_direct_parts with
  | Some (Ok results) => map (fun br => (fst br, concat (map fst (b_extracted_parts (snd br))))) results
  | _ => []
  end = [(AllCallsFull, chars "y = f(1)" ++ [10]); (AllCallsShorter, chars "y = f(1)" ++ [10]); (NovelCallsShorter, chars "y = f(1)" ++ [10])].
Proof. vm_compute. reflexivity. Qed.
Example C88_direct_hypotheses :
  ascii_digits ex_dig /\ ex_spc 10 = true /\ Parsed (Direct Cpp) <> Parsed Python /\ designates [concat (map fst ex_small_parts)] 0 (concat (map fst ex_small_parts)) /\
  exists r asg, combine_samples 100 (fun _ => false) (call_wrapper ex_spc [] (call_utilities (Q2Qc (1 # 2))))
          (parse_to_named_nodes ex_up ex_low ex_dig ex_spc ex_dig (Parsed (Direct Cpp)) false) [] [concat (map fst ex_small_parts)] 0 = Some (Ok r) /\
    assignment_map r = Some asg.
Proof.
  splits; [apply classes_example|reflexivity|discriminate|exists 0; split; auto|].
  assert (G : match combine_samples 100 (fun _ => false) (call_wrapper ex_spc [] (call_utilities (Q2Qc (1 # 2))))
          (parse_to_named_nodes ex_up ex_low ex_dig ex_spc ex_dig (Parsed (Direct Cpp)) false) [] [concat (map fst ex_small_parts)] 0 with
    | Some (Ok r) => match assignment_map r with Some _ => true | None => false end | _ => false end = true) by (vm_compute; reflexivity).
  destruct (combine_samples 100 _ _ _ _ _ _) as [[r|]|]; try discriminate. destruct (assignment_map r) as [asg|] eqn:Ea; [|discriminate]. exists r, asg. auto.
Qed.
Print Assumptions C51_trees_are_spaced.
Print Assumptions C66_call_baselines_raw_text.
Print Assumptions C88_call_baselines_direct_text.
