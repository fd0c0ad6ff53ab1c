(** C50: the baselines of the prefix wrapper.  Specification vocabulary:
    [PrefixBaselines.v] section Rules ([stops_before], [stops_after],
    [stops_at_best], the limits, [marks]); [ConstraintSpec.v] ([region_choice]). *)

From Coq Require Import List Bool Arith Lia QArith Qcanon Sorting.Sorted.
From Verif Require Import Base SeqNodes PackedSeq PackedSeqProofs Numbered Decisions TokenProb ConstraintSpec ConstraintProofs ConstraintPack
  RegionDecisions RegionProofs PrefixBaselines PrefixProofs PrefixTheorems.
Import ListNotations.
Close Scope Qc_scope. Close Scope Q_scope. Open Scope nat_scope.

(** The nodes of a prototype in preorder. *)
Notation in_preorder prototype := (flat_map nodes (labelled prototype)).

(** ** C50.  Every baseline stops by its rule and marks exactly that exit.  For
    every alignment the builder accepts and every threshold: *)
Theorem C50_token_probability :
  forall (M : Type) (prototype : list (node M)) toks aligned (low : Qc -> bool) (cumulative : bool),
    align_token_log_probs toks (pack prototype) false = Ok aligned ->
    exists o constraints, baseline_from_token_prob low cumulative (pack prototype) aligned = Ok constraints /\
      marks (in_preorder prototype) o constraints /\
      stops_before (in_preorder prototype)
        (if cumulative then low_prefix (in_preorder prototype) aligned low else low_token (in_preorder prototype) aligned low) o.
Proof. intros M ns toks aligned low cum H. exact (token_prob_rule ns toks false aligned low cum H). Qed.
Theorem C50_intellicode :
  forall (M : Type) (prototype : list (node M)) toks aligned (low : nat -> Qc -> bool),
    align_token_log_probs toks (pack prototype) false = Ok aligned ->
    exists o constraints, baseline_from_intellicode low (pack prototype) aligned = Ok constraints /\
      marks (in_preorder prototype) o constraints /\
      stops_before (in_preorder prototype) (low_for_position (in_preorder prototype) aligned low) o.
Proof. intros M ns toks aligned low H. exact (intellicode_rule ns toks false aligned low H). Qed.
Theorem C50_max_average :
  forall (M : Type) (prototype : list (node M)) toks aligned,
    align_token_log_probs toks (pack prototype) false = Ok aligned ->
    exists o constraints, baseline_from_max_average_log_prob (pack prototype) aligned = Ok constraints /\
      marks (in_preorder prototype) o constraints /\ stops_at_best (in_preorder prototype) aligned o.
Proof. intros M ns toks aligned H. exact (max_average_rule ns toks false aligned H). Qed.
Theorem C50_characters :
  forall (M : Type) (prototype : list (node M)) (most : nat),
    exists o constraints, baseline_from_characters most (pack prototype) = Ok constraints /\
      marks (in_preorder prototype) o constraints /\
      stops_after (in_preorder prototype) (characters_reached (in_preorder prototype) most) o.
Proof. intros M ns most. exact (characters_rule ns most). Qed.
Theorem C50_lines :
  forall (M : Type) (prototype : list (node M)) (most : nat),
    exists o constraints, baseline_from_lines most (pack prototype) = Ok constraints /\
      marks (in_preorder prototype) o constraints /\
      stops_after (in_preorder prototype) (lines_reached (in_preorder prototype) most) o.
Proof. intros M ns most. exact (lines_rule ns most). Qed.

(** Each rule names one exit (or none). *)
Theorem C50_rules_determine_the_exit :
  forall (M : Type) (all : list (lnode M)) (P : nat -> Prop) aligned o o',
    (stops_before all P o -> stops_before all P o' -> o = o') /\
    (stops_after all P o -> stops_after all P o' -> o = o') /\
    (stops_at_best all aligned o -> stops_at_best all aligned o' -> o = o').
Proof.
  assert (One : forall (P : nat -> Prop) k k', first P k -> first P k' -> k = k').
  { intros P k k' [H1 H2] [H3 H4]. specialize (H2 _ H3). specialize (H4 _ H1). lia. }
  intros M all P aligned o o'. splits; destruct o as [e|], o' as [e'|]; cbn; auto.
  - intros [E1 [k [F1 C1]]] [E2 [k' [F2 C2]]]. rewrite (One _ _ _ F1 F2) in *. f_equal.
    destruct C1 as [[A1 B1]|[A1 B1]], C2 as [[A2 B2]|[A2 B2]].
    + specialize (B1 e' E2 A2). specialize (B2 e E1 A1). lia.
    + specialize (B2 e E1). lia.
    + specialize (B1 e' E2). lia.
    + specialize (B1 e' E2). specialize (B2 e E1). lia.
  - intros [E1 [k [[F1 _] _]]] [H|H]; [now destruct (H k)|now destruct (H e)].
  - intros [H|H] [E1 [k [[F1 _] _]]]; [now destruct (H k)|now destruct (H e')].
  - intros [E1 [k [F1 [A1 B1]]]] [E2 [k' [F2 [A2 B2]]]]. rewrite (One _ _ _ F1 F2) in *. f_equal.
    specialize (B1 e' E2 A2). specialize (B2 e E1 A1). lia.
  - intros [E1 [k [[F1 _] [A1 _]]]] H. specialize (H k e F1 E1). lia.
  - intros H [E1 [k [[F1 _] [A1 _]]]]. specialize (H k e' F1 E1). lia.
  - intros [E1 [a [A1 B1]]] [E2 [a' [A2 B2]]]. f_equal. destruct (B1 e' a' E2 A2) as [L1 S1]. destruct (B2 e a E1 A1) as [L2 S2].
    destruct (lt_eq_lt_dec e e') as [[H|H]|H]; auto; exfalso.
    + specialize (S2 H). apply Qclt_not_le in S2. auto.
    + specialize (S1 H). apply Qclt_not_le in S1. auto.
  - intros [E1 [a [A1 _]]] H. now destruct (H e a E1).
  - intros H [E1 [a [A1 _]]]. now destruct (H e' a E1).
Qed.

(** The wrapper uses these baselines only when no regions are offered.  Then the
    constraints fit exactly one allowed choice of the prototype ... *)
Theorem C50_constraints_single_out_a_choice :
  forall (M : Type) (prototype : list (node M)) o constraints,
    (forall i, ~ In (LStart i) (in_preorder prototype)) ->
    (forall e, o = Some e -> exit_at (in_preorder prototype) e) ->
    marks (in_preorder prototype) o constraints ->
    exists choice, region_choice (labelled prototype) choice /\ satisfies_constraints constraints choice /\
      forall choice', region_choice (labelled prototype) choice' -> satisfies_constraints constraints choice' -> choice' = choice.
Proof. intros M ns o c H1 H2 H3. exact (marks_single_out ns o c H1 H2 H3). Qed.
(** ... and what is shown is the text before the exit, or all of it. *)
Theorem C50_prefix_shown :
  forall (M : Type) (prototype : list (node M)) o constraints marker,
    (forall i, ~ In (LStart i) (in_preorder prototype)) -> (forall i, ~ In (LEnd i) (in_preorder prototype)) ->
    (forall e, o = Some e -> exit_at (in_preorder prototype) e) ->
    marks (in_preorder prototype) o constraints ->
    extract_sequence_with_regions (pack prototype) constraints marker =
      (flat_map (fun x => match text_in x with Some t => [(t, false)] | None => [] end)
         (match o with Some e => before (in_preorder prototype) e | None => in_preorder prototype end), None).
Proof. intros M ns o c marker H1 H2 H3 H4. exact (marks_shown ns o c marker H1 H2 H3 H4). Qed.
(** The exit a rule names is one of the prototype's. *)
Theorem C50_rules_name_exits :
  forall (M : Type) (all : list (lnode M)) (P : nat -> Prop) aligned e,
    stops_before all P (Some e) \/ stops_after all P (Some e) \/ stops_at_best all aligned (Some e) -> exit_at all e.
Proof. intros M all P aligned e [H|[H|H]]; apply H. Qed.
(** A place without an exit is refused. *)
Theorem C50_unknown_exit_refused :
  forall (M : Type) (prototype : list (node M)) e, ~ exit_at (in_preorder prototype) e ->
    assignment_from_exit_point (pack prototype) (Some e) = Err ValueError.
Proof.
  intros M ns e He. unfold assignment_from_exit_point.
  assert (H : forall ids acc, (forall i, In i ids -> cat i = CExit -> pre i <> e) -> exists acc', exit_loop (Some e) false acc ids = Ok (acc', false)).
  { induction ids as [|i ids IH]; intros acc Hi; [now exists acc|]. cbn [exit_loop].
    assert (Hi' : forall j, In j ids -> cat j = CExit -> pre j <> e) by (intros j Hj; apply Hi; now right).
    destruct (cat i) eqn:Ec; try (now apply IH). destruct (eqb (Some (pre i)) (Some e)) eqn:E.
    - apply eqb_eq in E. injection E as E. now destruct (Hi i (or_introl eq_refl) Ec).
    - now apply IH. }
  destruct (H (preorder_traversal (pack ns)) []) as [acc' E]; [|now rewrite E].
  intros i Hi Hc Ep. rewrite preorder_labels in Hi. apply in_map_iff in Hi as [x [<- Hx]]. apply He.
  pose proof (nodes_all_placed ns) as F. rewrite Forall_forall in F. pose proof (F x Hx) as Px. apply placed_inv in Px.
  destruct x as [i t|i t m|i|i|i|i cs m]; cbn [label] in *; try congruence; try (destruct Px as [Px _]; congruence). now exists i.
Qed.

(** A concrete case: "ab", newline, "(c)". *)
Definition ex_prefix : list (node nat) :=
  [Token [97] 0; EarlyExit; Token [98] 0; EarlyExit; Deco [10]; Group [Token [40] 1; EarlyExit; Token [99] 0; EarlyExit; Token [41] 1; EarlyExit] 2; EarlyExit].
Definition ex_prefix_tokens : list (text * Qc) :=
  [([97], Q2Qc (- 1)); ([98; 10], Q2Qc (- 2)); ([40], Q2Qc (- 6)); ([99; 41], Q2Qc (- 1)); ([10], Q2Qc (- 1))].
Example C50_example :
  exists aligned, align_token_log_probs ex_prefix_tokens (pack ex_prefix) false = Ok aligned /\
  (forall i, ~ In (LStart i) (in_preorder ex_prefix)) /\ (forall i, ~ In (LEnd i) (in_preorder ex_prefix)) /\
  (* stop before the unlikely "(" *)
  (exists c, baseline_from_token_prob (fun x => qc_ltb x (Q2Qc (- 5))) false (pack ex_prefix) aligned = Ok c /\
     fst (extract_sequence_with_regions (pack ex_prefix) c []) = [([97], false); ([98], false)]) /\
  (* the first average is the best *)
  (exists c, baseline_from_max_average_log_prob (pack ex_prefix) aligned = Ok c /\
     fst (extract_sequence_with_regions (pack ex_prefix) c []) = [([97], false)]) /\
  (* four characters *)
  (exists c, baseline_from_characters 4 (pack ex_prefix) = Ok c /\
     fst (extract_sequence_with_regions (pack ex_prefix) c []) = [([97], false); ([98], false); ([10], false); ([40], false); ([99], false)]) /\
  (* one line *)
  (exists c, baseline_from_lines 1 (pack ex_prefix) = Ok c /\
     fst (extract_sequence_with_regions (pack ex_prefix) c []) = [([97], false); ([98], false); ([10], false); ([40], false)]).
Proof.
  eexists. split; [vm_compute; reflexivity|]. splits.
  - intros i H. cbn in H. repeat destruct H as [H|H]; try discriminate. exact H.
  - intros i H. cbn in H. repeat destruct H as [H|H]; try discriminate. exact H.
  - eexists. split; vm_compute; reflexivity.
  - eexists. split; vm_compute; reflexivity.
  - eexists. split; vm_compute; reflexivity.
  - eexists. split; vm_compute; reflexivity.
Qed.

(** Finding.  On a prototype with regions the constraints cannot be met: a region
    start after the exit is said not to start, but it does not apply. *)
Definition ex_prefix_region : list (node nat) := [Token [97] 0; EarlyExit; RegionStart; Token [98] 0; RegionEnd].
Theorem C50_with_regions_refuted :
  exists (prototype : list (node nat)) constraints,
    baseline_from_characters 1 (pack prototype) = Ok constraints /\
    (exists choice, region_choice (labelled prototype) choice) /\
    forall choice, region_choice (labelled prototype) choice -> ~ satisfies_constraints constraints choice.
Proof.
  exists ex_prefix_region. eexists. split; [vm_compute; reflexivity|]. split.
  - eexists. left. apply no_regions_chosen.
  - intros ch H S. apply crun_region_choice in H. cbn in H.
    pose proof (S _ _ (or_introl eq_refl)) as S1. pose proof (S _ _ (or_intror (or_introl eq_refl))) as S2. clear S.
    assert (Inv : exists a r, ch = ((0, NodeInRegion), DFalse) :: a /\
      crun false [LExit (mkId 1 CExit None); LStart (mkId 2 CStart None); LToken (mkId 3 CToken (Some 1)) [98] 0; LEnd (mkId 4 CEnd None)] a r).
    { destruct H as [H|H]; inversion H; subst; eauto. }
    clear H. destruct Inv as [a [r [-> H]]]. inversion H; subst; cbn in S1, S2; discriminate.
Qed.
Print Assumptions C50_token_probability.
Print Assumptions C50_intellicode.
Print Assumptions C50_max_average.
Print Assumptions C50_characters.
Print Assumptions C50_lines.
Print Assumptions C50_rules_determine_the_exit.
Print Assumptions C50_constraints_single_out_a_choice.
Print Assumptions C50_prefix_shown.
Print Assumptions C50_rules_name_exits.
Print Assumptions C50_unknown_exit_refused.
Print Assumptions C50_with_regions_refuted.
