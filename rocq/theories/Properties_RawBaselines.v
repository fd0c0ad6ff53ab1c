(** C88 continued: no baseline beats the combined suggestion, from raw text in every
    supported language.  Specification vocabulary: [beaten] in [Properties_NoBaseline.v]. *)

From Coq Require Import String.
From Coq Require Import List Bool Arith Lia ZArith Sorted QArith Qcanon.
From Verif Require Import Base SeqNodes Transforms PackedSeq PackedSeqProofs Numbered Graph GatedDag PackedDag Convert Decisions ConstraintSpec ConstraintDag
  TokenProb PseudoParse EditDag EditSpec EditTheorems SelectionDag SelectionSpec SelectionTheorems RegionDecisions RegionProofs PrefixBaselines PrefixTheorems Html CallSequence CallSpec CallProofs CallBaselines CallTheorems
  Properties_Tree Properties_Regions Properties_Calls Properties_Edit Properties_Baselines SystemSpec BuildSystem BuildKeys DualSolver Combine CombineSpec CombineStats CombineProofs CombineTheorems
  Properties_EndToEnd RegionBaselines RegionBaselineProofs RegionBaselineSolve Properties_RegionBaselines Lexer ParserTools Properties_ParserTools
  RunBaselines RunBaselineProofs Properties_RunBaselines Properties_NoBaseline.
Import ListNotations.
Close Scope string_scope. Close Scope Qc_scope. Close Scope Q_scope. Close Scope Z_scope. Open Scope nat_scope. Open Scope list_scope.


Theorem C88_prefix_baselines_raw_text :
  forall (isupper islower isdigit isspace digit : nat -> bool) (l : helper_language) (flatten : bool)
         (P P' : parameters) (low : Qc -> Qc -> bool) (low_at : nat -> Qc -> bool) (cfg : prefix_config) (context : text) (samples : list text) (index : Z)
         (parts : list (text * Qc)) fuel clock r asg results b br,
    ascii_digits digit -> isspace 10 = true -> parseable l context samples -> designates samples index (concat (map fst parts)) ->
    let parse := parse_to_nodes isupper islower isdigit isspace digit l flatten in
    combine_samples fuel clock (edit_wrapper P false true) parse context samples index = Some (Ok r) -> assignment_map r = Some asg ->
    run_prefix_baselines P' low low_at cfg parse context parts = Some (Ok results) -> In (b, br) results ->
    b_prototype br = r_prototype r /\
    exists trees choice, (forall s, In s samples -> parse (context ++ s) = Ok (trees s)) /\
      let prototype := prototype_of false true context (concat (map fst parts)) trees in
      region_choice (labelled prototype) choice /\ satisfies_constraints (b_assignment_map br) choice /\
      beaten (fun s => edit P (labelled prototype) (labelled (target_of context trees s))) samples choice r.
Proof.
  intros up lo d sp digit l f P P' low low_at cfg context samples index parts fuel clock r asg results b br H1 H2 H3 H4 parse E Ha Eb Hi.
  destruct (parseable_reads up lo d sp digit H1 H2 l f context samples H3) as [trees Ht].
  destruct (C88_prefix_baselines P P' low low_at cfg parse context samples index parts trees fuel clock r asg results b br (fun s Hs => proj1 (Ht s Hs)) H4 E Ha Eb Hi)
    as [A [choice [C1 [C2 [_ B]]]]].
  split; auto. exists trees, choice. splits; auto. intros s Hs. apply (Ht s Hs).
Qed.
Theorem C88_region_baselines_raw_text :
  forall (isupper islower isdigit isspace digit : nat -> bool) (l : helper_language) (flatten : bool)
         (P P' : parameters) (low : Qc -> Qc -> bool) thresholds fractions (cutoffs : list (Z * Z)) (context : text) (samples : list text) (index : Z)
         (parts : list (text * Qc)) fuel fuel' clock clocks r asg results b br,
    ascii_digits digit -> isspace 10 = true -> parseable l context samples -> designates samples index (concat (map fst parts)) -> context ++ concat (map fst parts) <> [] ->
    let parse := parse_to_nodes isupper islower isdigit isspace digit l flatten in
    combine_samples fuel clock (edit_wrapper P true false) parse context samples index = Some (Ok r) -> assignment_map r = Some asg ->
    run_region_baselines P' fuel' clocks low thresholds fractions cutoffs parse context parts = Some (Ok results) -> In (b, br) results ->
    b_prototype br = r_prototype r /\
    exists trees choice, (forall s, In s samples -> parse (context ++ s) = Ok (trees s)) /\
      let prototype := prototype_of true false context (concat (map fst parts)) trees in
      region_choice (labelled prototype) choice /\ same_decisions (b_assignment_map br) choice /\
      beaten (fun s => edit P (labelled prototype) (labelled (target_of context trees s))) samples choice r.
Proof.
  intros up lo d sp digit l f P P' low thresholds fractions cutoffs context samples index parts fuel fuel' clock clocks r asg results b br H1 H2 H3 H4 H5 parse E Ha Eb Hi.
  destruct (parseable_reads up lo d sp digit H1 H2 l f context samples H3) as [trees Ht].
  destruct (C88_region_baselines P P' low thresholds fractions cutoffs parse context samples index parts trees fuel fuel' clock clocks r asg results b br (fun s Hs => proj1 (Ht s Hs)) H4 H5 E Ha Eb Hi)
    as [A [choice [C1 [C2 B]]]].
  split; auto. exists trees, choice. splits; auto. intros s Hs. apply (Ht s Hs).
Qed.
(** For calls the white-space condition on the chosen sample's tree remains. *)
Theorem C88_call_baselines_raw_text :
  forall (isupper islower isdigit isspace digit : nat -> bool) (l : helper_language) (flatten : bool)
         (builtin : list text) (U U' : text -> text -> utilities) (context : text) (samples : list text) (index : Z)
         (parts : list (text * Qc)) fuel clock r asg results b br,
    ascii_digits digit -> isspace 10 = true -> parseable l context samples -> designates samples index (concat (map fst parts)) ->
    let parse := parse_to_named_nodes isupper islower isdigit isspace digit l flatten in
    (forall ns, parse (context ++ concat (map fst parts)) = Ok ns -> spaced isspace ns) ->
    combine_samples fuel clock (call_wrapper isspace builtin U) parse context samples index = Some (Ok r) -> assignment_map r = Some asg ->
    run_call_baselines isspace builtin U' parse context parts = Some (Ok results) -> In (b, br) results ->
    b_prototype br = r_prototype r /\
    exists trees, (forall s, In s samples -> parse (context ++ s) = Ok (trees s)) /\
      let calls := calls_of isspace builtin context trees in
      (exists choice, region_choice (labelled (calls (concat (map fst parts)))) choice /\ satisfies_constraints (b_assignment_map br) choice) /\
      forall choice, region_choice (labelled (calls (concat (map fst parts)))) choice -> satisfies_constraints (b_assignment_map br) choice ->
        beaten (fun s => selection U (walks (labelled (calls (concat (map fst parts))))) (walks (labelled (strip_decision_nodes (calls s))))) samples choice r.
Proof.
  intros up lo d sp digit l f builtin U U' context samples index parts fuel clock r asg results b br H1 H2 H3 H4 parse Hsp E Ha Eb Hi.
  destruct (parseable_reads up lo d sp digit H1 H2 l f context samples H3) as [trees Ht].
  assert (Hs : In (concat (map fst parts)) samples) by (destruct H4 as [j [Hj _]]; eapply nth_error_In; eauto).
  destruct (C88_call_baselines sp builtin U U' parse context samples index parts (fun s => map named (trees s)) fuel clock r asg results b br (fun s Hs => proj2 (Ht s Hs)) H4
              (Hsp _ (proj1 (proj2 (Ht _ Hs)))) E Ha Eb Hi) as [A B].
  split; auto. exists (fun s => map named (trees s)). split; [intros s Hs'; apply (Ht s Hs')|exact B].
Qed.

(** The white-space condition can be computed. *)
Fixpoint blank_before_groups (isspace : nat -> bool) (l : list N) : bool :=
  match l with
  | [] => true
  | Deco t :: l' => (all_space isspace t || negb (existsb group_node l')) && blank_before_groups isspace l'
  | _ :: l' => blank_before_groups isspace l'
  end.
Fixpoint well_spaced (isspace : nat -> bool) (n : N) : bool :=
  match n with Group cs _ => blank_before_groups isspace cs && forallb (well_spaced isspace) cs | _ => true end.
Lemma blank_spaced_list isspace l : blank_before_groups isspace l = true -> spaced_list isspace l.
Proof.
  intros H a t b cs m c ->. induction a as [|x a IH]; cbn [app blank_before_groups] in H.
  - apply andb_true_iff in H as [H _]. apply orb_true_iff in H as [H|H]; [now apply all_space_white|].
    rewrite existsb_app in H. cbn in H. rewrite orb_true_r in H. discriminate.
  - apply IH. destruct x; auto. now apply andb_true_iff in H as [_ H].
Qed.
Lemma well_spaced_spaced isspace (ns : list N) : blank_before_groups isspace ns && forallb (well_spaced isspace) ns = true -> spaced isspace ns.
Proof.
  assert (G : forall n : N, match n with Group cs _ => well_spaced isspace n = true -> spaced isspace cs | _ => True end).
  { induction n as [| | | | |cs m IH] using node_ind'; auto. intros E. cbn [well_spaced] in E. apply andb_true_iff in E as [E1 E2].
    constructor; [now apply blank_spaced_list|]. intros cs' m' Hi. rewrite Forall_forall in IH. specialize (IH _ Hi). cbn beta iota in IH. apply IH.
    rewrite forallb_forall in E2. apply (E2 _ Hi). }
  intros E. apply (G (Group ns [])). exact E.
Qed.

(** Python: "ab" and "ac" after "x = ", and a call. *)
Example C88_raw_hypotheses :
  ascii_digits ex_dig /\ ex_spc 10 = true /\ parseable (Parsed Python) (chars "x = ") [chars "ab"; chars "ac"] /\ designates [chars "ab"; chars "ac"] 0 (concat (map fst ex_model)) /\
  (forall ns, parse_to_named_nodes ex_up ex_low ex_dig ex_spc ex_dig (Parsed Python) false (chars "x = f ()") = Ok ns -> spaced ex_spc ns).
Proof.
  splits.
  - apply classes_example.
  - reflexivity.
  - left. discriminate.
  - exists 0. split; auto.
  - intros ns E. apply well_spaced_spaced. revert E. vm_compute. intros E. injection E as <-. reflexivity.
Qed.
Print Assumptions C88_prefix_baselines_raw_text.
Print Assumptions C88_region_baselines_raw_text.
Print Assumptions C88_call_baselines_raw_text.
