(** C88: no baseline beats the combined suggestion.  Specification vocabulary: [prices]
    and [beaten] below; [region_choice] in [ConstraintSpec.v]; [edit] in [EditSpec.v];
    [selection] in [SelectionSpec.v]; [average] in [SystemSpec.v]. *)

From Coq Require Import String.
From Coq Require Import List Bool Arith Lia ZArith Sorted QArith Qcanon.
From Verif Require Import Base SeqNodes Transforms PackedSeq PackedSeqProofs Numbered Graph GatedDag PackedDag Convert Decisions ConstraintSpec ConstraintDag
  TokenProb PseudoParse EditDag EditSpec EditTheorems SelectionDag SelectionSpec SelectionTheorems RegionDecisions RegionProofs PrefixBaselines PrefixTheorems Html CallSequence CallSpec CallProofs CallBaselines CallTheorems
  Properties_Tree Properties_Regions Properties_Calls Properties_Edit Properties_Baselines SystemSpec BuildSystem BuildKeys DualSolver Combine CombineSpec CombineStats CombineProofs CombineTheorems
  Properties_EndToEnd RegionBaselines RegionBaselineProofs RegionBaselineSolve Properties_RegionBaselines Lexer ParserTools Properties_ParserTools
  RunBaselines RunBaselineProofs Properties_RunBaselines.
Import ListNotations.
Close Scope string_scope. Close Scope Qc_scope. Close Scope Q_scope. Close Scope Z_scope. Open Scope nat_scope. Open Scope list_scope.

(** ** Specification. *)
(** [ks] are costs at which the decisions can be had, one for each sample. *)
Definition prices (rels : text -> Qc -> list decision -> Prop) (samples : list text) (choice : list decision) (ks : list Qc) : Prop :=
  Forall2 (fun s k => exists ds, rels s k ds /\ same_decisions choice ds) samples ks.
(** The decisions can be had for every sample; however they are had, they are on average
    worth no more than the reported bound, so no more than an optimal result. *)
Definition beaten {M St In} (rels : text -> Qc -> list decision -> Prop) (samples : list text) (choice : list decision) (r : combine_result M St In) : Prop :=
  (exists ks, prices rels samples choice ks) /\
  exists v u, solution_utility r = Fin v /\ utility_dual_bound r = Fin u /\
    forall ks, prices rels samples choice ks -> (- average ks <= u)%Qc /\ (v = u -> (- average ks <= v)%Qc).

Lemma beaten_choice {M St In} (rels : text -> Qc -> list decision -> Prop) (tree : list (lnode M)) samples choice (r : combine_result M St In) asg :
  worth_reported rels tree samples r -> assignment_map r = Some asg -> region_choice tree choice -> (forall s, List.In s samples -> exists k, rels s k choice) ->
  beaten rels samples choice r.
Proof.
  intros W Ha Hc Hk. split.
  - clear -Hk. induction samples as [|s l IH]; [exists []; exact (Forall2_nil _)|]. destruct (Hk s (or_introl eq_refl)) as [k Hs]. destruct IH as [ks Hks]; [intros s' Hs'; apply Hk; now right|].
    exists (k :: ks). apply Forall2_cons; auto. exists choice. split; auto. intros key. reflexivity.
  - destruct (W asg Ha) as [_ [ks0 [u [_ [Hv [Hu [_ Ho]]]]]]]. exists (- average ks0)%Qc, u. splits; auto. intros ks Hp.
    pose proof (Ho choice ks Hc Hp) as B. split; auto. now intros ->.
Qed.

(** ** C88.  Truncation baselines for the chosen sample: each stands for one choice of an
    exit, and this is worth no more than the bound. *)
Theorem C88_prefix_baselines :
  forall (P P' : parameters) (low : Qc -> Qc -> bool) (low_at : nat -> Qc -> bool) (cfg : prefix_config) parse (context : text) (samples : list text) (index : Z)
         (parts : list (text * Qc)) trees fuel clock r asg results b br,
    let sample := concat (map fst parts) in
    let prototype := prototype_of false true context sample trees in
    (forall s, In s samples -> reads parse (context ++ s) (trees s)) -> designates samples index sample ->
    combine_samples fuel clock (edit_wrapper P false true) parse context samples index = Some (Ok r) -> assignment_map r = Some asg ->
    run_prefix_baselines P' low low_at cfg parse context parts = Some (Ok results) -> In (b, br) results ->
    b_prototype br = r_prototype r /\
    exists choice, region_choice (labelled prototype) choice /\ satisfies_constraints (b_assignment_map br) choice /\
      (forall choice', region_choice (labelled prototype) choice' -> satisfies_constraints (b_assignment_map br) choice' -> choice' = choice) /\
      beaten (fun s => edit P (labelled prototype) (labelled (target_of context trees s))) samples choice r.
Proof.
  intros P P' low low_at cfg parse context samples index parts trees fuel clock r asg results b br sample prototype Hread Hsample H Ha Hb Hin.
  assert (Hs : In sample samples) by (destruct Hsample as [j [Hj _]]; eapply nth_error_In; eauto).
  pose proof (Hread sample Hs) as Hr.
  destruct (C66_prefix_baselines P' low low_at cfg parse context parts (trees sample) Hr) as [results' [E [X Y]]]. rewrite Hb in E. injection E as <-.
  destruct (also_insert_uncertainty_regions cfg) eqn:Ec; [rewrite (X eq_refl) in Hin; destruct Hin|].
  destruct (Y eq_refl) as [_ [_ [aligned [_ Z]]]]. destruct (Z b br Hin) as (_ & Ep & _ & o & rest & St & Mk & _).
  change (annotate false true (trees sample) (length context)) with prototype in *.
  destruct (edit_spec P false true parse context samples index sample trees Hread Hsample fuel clock r H) as [_ [Er _]].
  split; [rewrite Ep; symmetry; exact Er|].
  destruct (C50_constraints_single_out_a_choice mtype prototype o (b_assignment_map br)) as [choice [C1 [C2 C3]]]; auto.
  { intros i. apply (exits_only (trees sample) context (proj2 (proj2 Hr))). }
  { intros e ->. eapply prefix_names_exit; eauto. }
  exists choice. splits; auto.
  destruct (C60_edit_utility P false true parse context samples index sample trees fuel clock r Hread Hsample H) as [W _].
  eapply beaten_choice; eauto. intros s Hs'. apply choice_edit; auto. apply (target_text parse context samples trees Hread s Hs').
Qed.

(** Highlighting baselines: each is itself a choice of regions. *)
Theorem C88_region_baselines :
  forall (P P' : parameters) (low : Qc -> Qc -> bool) thresholds fractions (cutoffs : list (Z * Z)) parse (context : text) (samples : list text) (index : Z)
         (parts : list (text * Qc)) trees fuel fuel' clock clocks r asg results b br,
    let sample := concat (map fst parts) in
    let prototype := prototype_of true false context sample trees in
    (forall s, In s samples -> reads parse (context ++ s) (trees s)) -> designates samples index sample -> context ++ sample <> [] ->
    combine_samples fuel clock (edit_wrapper P true false) parse context samples index = Some (Ok r) -> assignment_map r = Some asg ->
    run_region_baselines P' fuel' clocks low thresholds fractions cutoffs parse context parts = Some (Ok results) -> In (b, br) results ->
    b_prototype br = r_prototype r /\
    exists choice, region_choice (labelled prototype) choice /\ same_decisions (b_assignment_map br) choice /\
      beaten (fun s => edit P (labelled prototype) (labelled (target_of context trees s))) samples choice r.
Proof.
  intros P P' low thresholds fractions cutoffs parse context samples index parts trees fuel fuel' clock clocks r asg results b br sample prototype Hread Hsample Hne H Ha Hb Hin.
  assert (Hs : In sample samples) by (destruct Hsample as [j [Hj _]]; eapply nth_error_In; eauto).
  pose proof (Hread sample Hs) as Hr.
  destruct (C66_region_baselines P' low thresholds fractions cutoffs parse context parts (trees sample) Hr Hne) as [_ [aligned [Al Y]]].
  destruct (Y fuel' clocks results Hb) as [_ [_ Z]]. destruct (Z b br Hin) as (_ & Ep & _ & _ & _ & places & Hl & sy & clock' & res & c & Es & Hsol).
  change (annotate true false (trees sample) (length context)) with prototype in *.
  change (truncate_prefix_at_offset (trees sample) (Z.of_nat (length context))) with (target_of context trees sample) in *.
  destruct (edit_spec P true false parse context samples index sample trees Hread Hsample fuel clock r H) as [_ [Er _]].
  split; [rewrite Ep; symmetry; exact Er|].
  assert (HT : forall s, In s samples -> Forall text_only (labelled (target_of context trees s))) by (intros s Hs'; apply (target_text parse context samples trees Hread s Hs')).
  assert (HQ : questions (labelled prototype) <> []).
  { pose proof (enough_questions true false parse context samples index sample trees Hread Hsample eq_refl Hne) as Q. fold prototype in Q. intros C. rewrite C in Q. cbn in Q. lia. }
  assert (Np : NoDup places).
  { destruct Hl as [Sd _]. clear -Sd. induction Sd as [|x l S IH F]; constructor; auto. intros Hi. rewrite Forall_forall in F. apply F in Hi. lia. }
  destruct (C62_solving mtype _ P' prototype (target_of context trees sample) places (HT sample Hs) HQ Np) as [sy' [Es' [_ R]]].
  { intros k Hk. apply (proj2 Hl) in Hk. eapply rule_token; eauto. }
  assert (sy' = sy) by congruence. subst sy'. destruct (R _ _ _ _ _ Hsol) as [_ [_ [choice [k [C1 [C2 _]]]]]].
  exists choice. splits; auto.
  destruct (C60_edit_utility P true false parse context samples index sample trees fuel clock r Hread Hsample H) as [W _].
  eapply beaten_choice; eauto. intros s Hs'. apply choice_edit; auto.
Qed.

(** Baselines for calls. *)
Theorem C88_call_baselines :
  forall (isspace : nat -> bool) (builtin : list text) (U U' : text -> text -> utilities) parse (context : text) (samples : list text) (index : Z)
         (parts : list (text * Qc)) trees fuel clock r asg results b br,
    let sample := concat (map fst parts) in
    let calls := calls_of isspace builtin context trees in
    (forall s, In s samples -> reads parse (context ++ s) (trees s)) -> designates samples index sample -> spaced isspace (trees sample) ->
    combine_samples fuel clock (call_wrapper isspace builtin U) parse context samples index = Some (Ok r) -> assignment_map r = Some asg ->
    run_call_baselines isspace builtin U' parse context parts = Some (Ok results) -> In (b, br) results ->
    b_prototype br = r_prototype r /\
    (exists choice, region_choice (labelled (calls sample)) choice /\ satisfies_constraints (b_assignment_map br) choice) /\
    forall choice, region_choice (labelled (calls sample)) choice -> satisfies_constraints (b_assignment_map br) choice ->
      beaten (fun s => selection U (walks (labelled (calls sample))) (walks (labelled (strip_decision_nodes (calls s))))) samples choice r.
Proof.
  intros isspace builtin U U' parse context samples index parts trees fuel clock r asg results b br sample calls Hread Hsample Hsp H Ha Hb Hin.
  assert (Hs : In sample samples) by (destruct Hsample as [j [Hj _]]; eapply nth_error_In; eauto).
  destruct (C66_call_baselines isspace builtin U' parse context parts (trees sample) (proj1 (Hread sample Hs)) Hsp) as [seqs [results' [_ [E [_ Z]]]]].
  rewrite Hb in E. injection E as <-. destruct (Z b br Hin) as [Ep [_ [choice0 [C1 C2]]]].
  change (make_callseq_tree isspace builtin (trees sample) (length context)) with (calls sample) in *.
  destruct (call_spec isspace builtin U parse context samples index sample trees Hread Hsample fuel clock r H) as [_ [Er _]].
  split; [rewrite Ep; symmetry; exact Er|]. split; [eauto|]. intros choice D1 D2.
  pose proof (C60_call_utility isspace builtin U parse context samples index sample trees fuel clock r Hread Hsample H) as W. cbn zeta in W.
  eapply beaten_choice; eauto. intros s Hs'. apply choice_selection; auto. apply (calls_hyps isspace builtin context sample trees).
Qed.

(** "ab" and "ac" with the model's tokens for "ab", and "f()" and "g" for calls: what the
    baselines show of the chosen sample, and what combining reports. *)
Definition ex_model : list (text * Qc) := [(chars "a", Q2Qc (-1)); (chars "b", Q2Qc (-3))].
Example C88_hypotheses :
  (forall s, In s [chars "ab"; chars "ac"] -> reads letters (chars "x" ++ s) (letter_tree (chars "x") s)) /\ designates [chars "ab"; chars "ac"] 0 (concat (map fst ex_model)) /\
  (forall s, In s [chars "f()"; chars "g"] -> reads call_parse ((chars "x" ++ [10]) ++ s) (call_tree s)) /\ designates [chars "f()"; chars "g"] 0 (concat (map fst [(chars "f()", Q2Qc (-1))])) /\
  spaced ascii_space (call_tree (chars "f()")).
Proof.
  splits.
  - intros s Hs. cbn in Hs. destruct Hs as [<-|[<-|[]]]; repeat split; repeat constructor.
  - exists 0. split; auto.
  - apply C55_calls_hypotheses.
  - apply C55_calls_hypotheses.
  - apply all_white_spaced. vm_compute. reflexivity.
Qed.
Definition ex_worth {M St In} (r : option (result (combine_result M St In))) := match r with
  | Some (Ok r) => match assignment_map r with Some _ => Some (solution_utility r, utility_dual_bound r) | None => None end | _ => None end.
Definition ex_shows {B A} (r : option (result (list (B * A)))) (f : A -> list part) := match r with Some (Ok l) => map (fun br => concat (map fst (f (snd br)))) l | _ => [] end.
Example C88_example :
  (ex_worth (combine_samples 100 (fun _ => false) (edit_wrapper ex_costs false true) letters (chars "x") [chars "ab"; chars "ac"] 0),
   ex_shows (run_prefix_baselines ex_costs below (fun n x => below x (Q2Qc (-2))) ex_cfg letters (chars "x") ex_model) b_extracted_parts,
   ex_shows (run_call_baselines ascii_space [] (call_utilities (Q2Qc (1 # 4))) call_parse (chars "x" ++ [10]) [(chars "f()", Q2Qc (-1))]) b_extracted_parts)
  = (Some (Fin 1%Qc, Fin 1%Qc), [chars "a"; chars "a"; chars "a"; chars "a"; chars "a"; chars "ab"], [chars "f()" ++ [10]; chars "f()" ++ [10]; chars "f()" ++ [10]]).
Proof. vm_compute. reflexivity. Qed.
Print Assumptions C88_prefix_baselines.
Print Assumptions C88_region_baselines.
Print Assumptions C88_call_baselines.
