(** C41, C42, C47, C48, C58: the constraint DAG and the regions shown to the
    user.  Specification vocabulary: [ConstraintSpec.v] ([region_choice]),
    [RegionDecisions.v] section Spec ([shown], [before_exit], [in_region_at]),
    [Html.v] ([document]: markup read back). *)

From Coq Require Import String List Bool Arith Lia ZArith QArith Qcanon Sorting.Sorted.
From Verif Require Import Base Graph GatedDag SeqNodes PackedSeq PackedSeqProofs Numbered Decisions Convert
  ConstraintDag ConstraintSpec ConstraintProofs BuilderPack ConstraintPack RegionDecisions RegionProofs Html.
Import ListNotations.
Close Scope Qc_scope. Close Scope Q_scope. Close Scope Z_scope. Open Scope nat_scope.

(** The tree of the examples: "a" can be marked, "(b)" is a group in which "b"
    can be marked and after which one can stop, then a newline. *)
Definition ex_regions : list (node nat) :=
  [RegionStart; Token [97] 0; Group [Token [40] 1; RegionStart; Token [60] 0; RegionEnd; EarlyExit; Token [41] 1] 2;
   RegionEnd; Deco [10]].
(** Mark "a" and the group. *)
Definition ex_marked : list decision :=
  [((0, RegionShouldStart), DTrue); ((1, NodeInRegion), DTrue); ((2, NodeInRegion), DTrue); ((3, NodeInRegion), DTrue);
   ((4, RegionShouldStart), DNA); ((5, NodeInRegion), DTrue); ((6, RegionShouldEnd), DFalse);
   ((7, ShouldEarlyExit), DFalse); ((8, NodeInRegion), DTrue); ((9, RegionShouldEnd), DTrue)].
(** Mark nothing at the root, "b" in the group, and stop. *)
Definition ex_stopped : list decision :=
  [((0, RegionShouldStart), DFalse); ((1, NodeInRegion), DFalse); ((2, NodeInRegion), DFalse); ((3, NodeInRegion), DFalse);
   ((4, RegionShouldStart), DTrue); ((5, NodeInRegion), DTrue); ((6, RegionShouldEnd), DTrue); ((7, ShouldEarlyExit), DTrue)].
Lemma ex_marked_choice : region_choice (labelled ex_regions) ex_marked.
Proof.
  left. cbn. refine (ch_region _ [_; _] _ _ _ _). repeat constructor.
Qed.
Lemma ex_stopped_choice : region_choice (labelled ex_regions) ex_stopped.
Proof.
  right. cbn. refine (ex_skip [_; _] _ [_; _] _ _ _); [repeat constructor|].
  apply ex_group. refine (ex_skip [_; _; _; _] _ [_; _; _; _] _ _ _).
  - apply ch_token. refine (ch_region _ [_] _ [] [] _). constructor.
  - apply ex_here.
Qed.

(** ** C41.  The constraint DAG accepts exactly the well-formed choices of
    regions and early exit, at no cost. *)
Theorem C41_constraint_dag_exact :
  forall (M : Type) (prototype : list (node M)),
    exists d, construct_constraint_dag (pack prototype) = Ok d /\
      (forall p, complete_path d p ->
         path_cost p = Fin 0 /\ region_choice (labelled prototype) (path_assignments p)) /\
      (forall choice, region_choice (labelled prototype) choice ->
         exists p, complete_path d p /\ path_assignments p = choice) /\
      (* the edges marked as early exits are those that take one *)
      (forall e, In e (edges d) ->
         (info e = EarlyExitInfo <-> exists i, assignment e = Some ((i, ShouldEarlyExit), DTrue))).
Proof.
  intros M ns. eexists. split; [apply construct_ok|]. splits.
  - intros p Hp. split.
    + apply zero_cost, Forall_forall. intros e He. eapply is_path_In in He; [|exact Hp].
      pose proof (constraint_plain (labelled ns)) as F. rewrite Forall_forall in F. auto.
    + apply constraint_paths; [apply labelled_numbered|exact Hp].
  - intros choice Hc. exact (constraint_choices _ _ Hc).
  - intros e He. pose proof (constraint_plain (labelled ns)) as F. rewrite Forall_forall in F. now apply (F e He).
Qed.
(** At most one decision per node: a choice never contradicts itself. *)
Theorem C41_one_decision_per_node :
  forall (M : Type) (prototype : list (node M)) choice,
    region_choice (labelled prototype) choice -> StronglySorted lt (map (fun d => fst (fst d)) choice).
Proof. intros M ns choice. apply choice_increasing, labelled_numbered. Qed.
Example C41_example :
  region_choice (labelled ex_regions) ex_marked /\ region_choice (labelled ex_regions) ex_stopped /\
  (* a region that starts in the group and ends outside it is not allowed *)
  ~ region_choice (labelled ex_regions)
      [((0, RegionShouldStart), DFalse); ((1, NodeInRegion), DFalse); ((2, NodeInRegion), DFalse); ((3, NodeInRegion), DFalse);
       ((4, RegionShouldStart), DTrue); ((5, NodeInRegion), DTrue); ((6, RegionShouldEnd), DFalse);
       ((7, ShouldEarlyExit), DFalse); ((8, NodeInRegion), DTrue); ((9, RegionShouldEnd), DTrue)].
Proof.
  split; [apply ex_marked_choice|]. split; [apply ex_stopped_choice|].
  intros H. apply crun_region_choice in H. cbn in H.
  destruct H as [H|H];
    repeat match goal with
           | H : crun _ (_ :: _) _ _ |- _ => inversion H; clear H; subst
           | H : crun _ [] _ _ |- _ => inversion H; clear H; subst
           | H : _ ++ _ = _ |- _ => cbn in H; try discriminate H; try (injection H as; subst)
           end.
Qed.
Print Assumptions C41_constraint_dag_exact.
Print Assumptions C41_one_decision_per_node.

(** ** C42 (constraint DAG).  Building never raises. *)
Theorem C42_constraint_dag_ordered :
  forall (M : Type) (prototype : list (node M)),
    exists d, construct_constraint_dag (pack prototype) = Ok d /\ topological (edges d).
Proof.
  intros M ns. eexists. split; [apply construct_ok|]. apply constraint_topological, labelled_numbered.
Qed.
Example C42_constraint_example :
  match construct_constraint_dag (pack ex_regions) with Ok d => List.length (edges d) = 38 | Err _ => False end.
Proof. vm_compute. reflexivity. Qed.
Print Assumptions C42_constraint_dag_ordered.

(** ** C58 (constraint DAG).  Pruning and packing what was built never raises. *)
Theorem C58_constraint_dag_packs :
  forall (M : Type) (prototype : list (node M)),
    exists d r, construct_constraint_dag (pack prototype) = Ok d /\
      pack_constraint_dag (prune_to_reachable d) = Ok r.
Proof.
  intros M ns. destruct (constraint_packs ns _ (construct_ok ns)) as [r Hr].
  eexists. exists r. split; [apply construct_ok|exact Hr].
Qed.
Example C58_constraint_example :
  match construct_constraint_dag (pack ex_regions) with
  | Ok d => match pack_constraint_dag (prune_to_reachable d) with Ok _ => True | Err _ => False end
  | Err _ => False
  end.
Proof. vm_compute. exact I. Qed.
Print Assumptions C58_constraint_dag_packs.

(** ** C47.  On every allowed choice extraction succeeds and shows the text nodes before
    the exit taken, flagged exactly when they lie between a chosen start and
    the chosen end, with the marker for empty regions; the decisions about
    single tokens say the same. *)
Theorem C47_regions_shown :
  forall (M : Type) (prototype : list (node M)) choice (asg : assignments) (marker : text),
    region_choice (labelled prototype) choice -> respects asg choice ->
    let all := flat_map nodes (labelled prototype) in
    exists parts, extract_sequence_with_regions (pack prototype) asg marker = (parts, None) /\
      shown all asg marker all parts /\
      forall i t m, In (LToken i t m) all -> before_exit all asg (pre i) ->
        exists v, assoc (pre i, NodeInRegion) asg = Some v /\ v <> DNA /\ (v = DTrue <-> in_region_at all asg (pre i)).
Proof.
  intros M ns choice asg marker Hc R all. destruct (choice_walk asg marker _ _ Hc R) as [[out Ho] Ha].
  pose proof (nodes_sorted _ _ (labelled_numbered ns)) as Sd.
  exists out. splits.
  - now rewrite extract_pack.
  - apply (go_shown all asg marker Sd all [] false false); auto. apply knows_nil.
  - intros i t m. apply (agree_tokens all asg Sd all [] false false); auto. apply knows_nil.
Qed.
(** Without early exit the parts spell the prototype's text, otherwise a prefix. *)
Theorem C47_text :
  forall (M : Type) (prototype : list (node M)) choice (asg : assignments),
    region_choice (labelled prototype) choice -> respects asg choice ->
    exists parts rest, extract_sequence_with_regions (pack prototype) asg [] = (parts, None) /\
      render prototype = concat (map fst parts) ++ rest /\
      (chosen (labelled prototype) choice -> rest = []).
Proof.
  intros M ns choice asg Hc R. destruct (C47_regions_shown M ns choice asg [] Hc R) as [parts [E [Hs _]]].
  pose proof (nodes_sorted _ _ (labelled_numbered ns)) as Sd.
  destruct (shown_prefix _ _ _ _ Sd Hs) as [rest Hr]. rewrite nodes_render in Hr.
  exists parts, rest. splits; auto. intros Hch.
  rewrite <- nodes_render in Hr. erewrite <- (shown_all_text _ _ _ _ Hs) in Hr.
  - rewrite <- app_nil_r in Hr at 1. now apply app_inv_head in Hr.
  - intros x _ i Hi Ht. unfold taken in Ht. rewrite (chosen_declines _ _ _ _ Hch R Hi) in Ht. discriminate.
Qed.
(** What the solver returns assigns every variable, those the path skips with
    "not applicable"; extra assignments change nothing above.  Example: *)
Example C47_example :
  respects ex_marked ex_marked /\
  extract_sequence_with_regions (pack ex_regions) ex_marked [] =
    ([([97], true); ([40], true); ([60], true); ([41], true); ([10], false)], None) /\
  extract_sequence_with_regions (pack ex_regions) ex_stopped [] = ([([97], false); ([40], false); ([60], true)], None) /\
  (* an empty region shows the marker *)
  extract_sequence_with_regions (pack [@RegionStart nat; Group [] 0; RegionEnd])
    [((0, RegionShouldStart), DTrue); ((1, NodeInRegion), DTrue); ((2, RegionShouldEnd), DTrue)] [42] = ([([42], true)], None).
Proof.
  split; [|now vm_compute].
  intros k v H. cbn in H. repeat (destruct H as [H|H]; [injection H as <- <-; reflexivity|]). destruct H.
Qed.
Print Assumptions C47_regions_shown.
Print Assumptions C47_text.

(** ** C48 (regions).  Whatever the texts, the markup after the style sheet is
    well-formed: reading it back (entities decoded, tags removed) gives
    exactly the characters of the parts, each under the root span, and under a
    region span exactly when its part is flagged. *)
Theorem C48_regions_html :
  forall (M : Type) (prototype : storage M) (asg : assignments) (c1 c2 c3 : text) parts,
    extract_sequence_with_regions prototype asg empty_marker = (parts, None) ->
    exists body, render_regions_to_html prototype asg c1 c2 c3 = Ok (region_style c1 c2 c3 ++ body) /\
      document body =
        Some (flat_map (fun part => map (fun c => (c, if snd part : bool then [region_span; root_span] else [root_span]))
                                        (fst part)) parts).
Proof. intros M S asg c1 c2 c3 parts H. exact (regions_html S asg c1 c2 c3 parts H). Qed.
Example C48_regions_example :
  exists s, render_regions_to_html (pack ex_regions) ex_stopped [] [] [] = Ok (region_style [] [] [] ++ s) /\
    s = chars "<span class=""regions_root"">a(<span class=""in_region"">&lt;</span></span>".
Proof. eexists. split; reflexivity. Qed.
Print Assumptions C48_regions_html.
