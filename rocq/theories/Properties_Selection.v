(** C42, C45, C46, C52, C58, C59 (selection DAG): selecting parts of a prototype
    that occur in a target.  Specification vocabulary: [SelectionSpec.v]
    ([walks], [selection]), [ConstraintSpec.v] (the constraint DAG's choices) and,
    for the groups, [of_prototype], [of_target], [unselected], [shown_tokens] in
    [SelectionReportProofs.v]. *)

From Coq Require Import List Bool Arith Lia ZArith QArith Qcanon Sorting.Sorted.
From Verif Require Import Base Graph GatedDag SeqNodes PackedSeq PackedSeqProofs Numbered Decisions Convert
  ConstraintDag ConstraintSpec ConstraintProofs ConstraintPack EditSpec SelectionDag SelectionSpec SelectionProofs SelectionPaths
  SelectionTheorems SelectionReport SelectionReportProofs Search.
Import ListNotations.
Close Scope Qc_scope. Close Scope Q_scope. Close Scope Z_scope. Open Scope nat_scope.

(** The examples: "a" and, in a group, "c" can be selected; the target has "a"
    only. A match is worth 2 per token, a wrong selection costs 1. *)
Definition ex_utilities (t : text) (m : nat) : utilities := mkUtilities (Q2Qc 2) (Q2Qc 1).
Definition ex_prototype : list (node nat) :=
  [RegionStart; Token [97] 0; RegionEnd; Deco [32]; Group [Token [98] 0; RegionStart; Token [99] 0; RegionEnd] 1].
Definition ex_target : list (node nat) := [Token [122] 0; Token [97] 0; Group [Token [98] 0] 1].
Definition ex_decisions : list decision :=
  [((0, RegionShouldStart), DTrue); ((1, NodeInRegion), DTrue); ((2, RegionShouldEnd), DTrue);
   ((4, NodeInRegion), DFalse); ((5, NodeInRegion), DFalse);
   ((6, RegionShouldStart), DTrue); ((7, NodeInRegion), DTrue); ((8, RegionShouldEnd), DTrue)].
Lemma ex_selection : exists k, selection ex_utilities (walks (labelled ex_prototype)) (walks (labelled ex_target)) k ex_decisions /\
  this k = (- (1 # 1))%Q.
Proof.
  eexists. split.
  - cbn. apply (sel_found _ 0 [WToken 1 [97] 0] 2 _ [WToken 0 [122] 0] [WToken 1 [97] 0]); [repeat constructor|reflexivity|].
    apply (sel_leave _ (WOpen 4 1)); [exact I|]. apply (sel_leave _ (WToken 5 [98] 0)); [exact I|].
    apply (sel_lost _ 6 [WToken 7 [99] 0] 8); [repeat constructor|].
    apply (sel_leave _ (WClose 4 1)); [exact I|]. apply sel_nothing.
  - vm_compute. reflexivity.
Qed.
Lemma ex_plain : Forall no_exit (walks (labelled ex_prototype)) /\ ~ begins_with_end (walks (labelled ex_prototype)) /\
  Forall text_only (labelled ex_target).
Proof. splits; [repeat constructor|exact (fun C => C)|repeat constructor]. Qed.

(** ** C42 (selection DAG).  The edges are always in order; the only way to fail
    is a prototype whose first node is a region end, when a variable is read
    before it is set. *)
Theorem C42_selection_dag_ordered :
  forall (M : Type) (md : EqDec M) (U : text -> M -> utilities) (prototype target : list (node M)),
    (~ begins_with_end (walks (labelled prototype)) ->
       exists d, construct_selection_dag U (pack prototype) (pack target) = Ok d /\ topological (edges d)) /\
    (begins_with_end (walks (labelled prototype)) ->
       construct_selection_dag U (pack prototype) (pack target) = Err UnboundLocalError).
Proof.
  intros M md U ns ts. split; intros B.
  - eexists. split; [now apply construct_selection_ok|]. apply all_edges_topological.
  - now apply construct_selection_fails.
Qed.
Example C42_selection_example :
  match construct_selection_dag ex_utilities (pack ex_prototype) (pack ex_target) with
  | Ok d => 50 <? List.length (edges d) = true | Err _ => False end.
Proof. vm_compute. reflexivity. Qed.
(** So building can raise. *)
Theorem C42_selection_dag_refuted :
  exists (prototype target : list (node nat)), construct_selection_dag ex_utilities (pack prototype) (pack target) = Err UnboundLocalError.
Proof. exists [RegionEnd; Token [97] 0], [Token [97] 0]. vm_compute. reflexivity. Qed.
Print Assumptions C42_selection_dag_ordered.
Print Assumptions C42_selection_dag_refuted.

(** ** C45.  The costs and decisions of the paths are those of the selections:
    every selected part is either found as a contiguous run of the target,
    after the runs found before it, and gains its utility, or it is paid for. *)
Theorem C45_selection_paths_credit_occurrences :
  forall (M : Type) (md : EqDec M) (U : text -> M -> utilities) (prototype target : list (node M)) d p,
    construct_selection_dag U (pack prototype) (pack target) = Ok d -> complete_path d p ->
    exists k, path_cost p = Fin k /\
      selection U (walks (labelled prototype)) (walks (labelled target)) k (path_assignments p).
Proof.
  intros M md U ns ts d p Hd Hp.
  assert (B : ~ begins_with_end (walks (labelled ns))).
  { intros B. rewrite (construct_selection_fails U ns ts B) in Hd. discriminate. }
  rewrite (construct_selection_ok U ns ts B) in Hd. injection Hd as <-. unfold complete_path in Hp. cbn in Hp.
  destruct (selection_path_finite U _ _ _ Hp) as [k Hk]. exists k. split; auto. eapply selection_paths; eauto.
Qed.
Theorem C45_selection_dag_exact :
  forall (M : Type) (md : EqDec M) (U : text -> M -> utilities) (prototype target : list (node M)),
    Forall no_exit (walks (labelled prototype)) -> ~ begins_with_end (walks (labelled prototype)) -> Forall text_only (labelled target) ->
    exists d, construct_selection_dag U (pack prototype) (pack target) = Ok d /\
      forall k choice,
        selection U (walks (labelled prototype)) (walks (labelled target)) k choice <->
        exists p, complete_path d p /\ path_cost p = Fin k /\ path_assignments p = choice.
Proof.
  intros M md U ns ts F B T. eexists. split; [now apply construct_selection_ok|]. intros k choice. split.
  - intros H. exact (selection_has_path U _ _ _ _ F (texts_seen _ T) H).
  - intros [p [Hp [H1 H2]]]. eapply selection_paths; eauto.
Qed.
Example C45_example :
  (exists k, selection ex_utilities (walks (labelled ex_prototype)) (walks (labelled ex_target)) k ex_decisions /\ this k = (- (1 # 1))%Q) /\
  Forall no_exit (walks (labelled ex_prototype)) /\ ~ begins_with_end (walks (labelled ex_prototype)) /\ Forall text_only (labelled ex_target).
Proof. split; [exact ex_selection|exact ex_plain]. Qed.
Print Assumptions C45_selection_paths_credit_occurrences.
Print Assumptions C45_selection_dag_exact.

(** ** C46.  Wherever a path arrives at a region end with an unmatched selection,
    it can end the selection there or go on, at no cost. *)
Theorem C46_ending_and_continuing_offered :
  forall (M : Type) (md : EqDec M) (U : text -> M -> utilities) (prototype target : list (node M)) d p i j k,
    construct_selection_dag U (pack prototype) (pack target) = Ok d ->
    is_path (edges d) (initial_state d) p (SAt SelectUnmatched i j) ->
    nth_error (walks (labelled prototype)) i = Some (WEnd k) ->
    (exists e, In e (edges d) /\ source e = SAt SelectUnmatched i j /\ dest e = SAt SkipUnselected (S i) j /\ ecost e = Fin 0 /\
       assignment e = Some ((k, RegionShouldEnd), DTrue)) /\
    (exists e, In e (edges d) /\ source e = SAt SelectUnmatched i j /\ dest e = SAt SelectUnmatched (S i) j /\ ecost e = Fin 0 /\
       assignment e = Some ((k, RegionShouldEnd), DFalse)).
Proof.
  intros M md U ns ts d p i j k Hd Hp Hi.
  assert (B : ~ begins_with_end (walks (labelled ns))).
  { intros B. rewrite (construct_selection_fails U ns ts B) in Hd. discriminate. }
  rewrite (construct_selection_ok U ns ts B) in Hd. injection Hd as <-. cbn [edges initial_state] in *.
  destruct (both_offered U _ _ _ _ _ _ Hp Hi) as [H1 H2]. split; [exists (mkEdge (SAt SelectUnmatched i j) (SAt SkipUnselected (S i) j) (Fin 0) (Some ((k, RegionShouldEnd), DTrue)) None)|eexists]; (split; [eassumption|]); splits; reflexivity.
Qed.
(** After the second region start ("c"), unmatched, at the second region end. *)
Lemma follow (es : list sedge) s p t u : is_path es s p t -> existsb (fun e => eqb (source e) t && eqb (dest e) u) es = true ->
  exists p', is_path es s p' u.
Proof.
  intros Hp E. apply existsb_exists in E as [e [He E]]. apply andb_true_iff in E as [E1 E2]. apply eqb_eq in E1, E2. subst.
  exists (p ++ [e]). eapply is_path_app; [exact Hp|]. apply path_cons; [exact He|apply path_nil].
Qed.
Lemma follows (es : list sedge) : forall us s p t, is_path es s p t ->
  (fix ok t us := match us with [] => true | u :: us' => existsb (fun e => eqb (source e) t && eqb (dest e) u) es && ok u us' end) t us = true ->
  exists p', is_path es s p' (last us t).
Proof.
  induction us as [|u us IH]; intros s p t Hp E; [exists p; exact Hp|]. apply andb_true_iff in E as [E1 E2].
  destruct (follow es s p t u Hp E1) as [p' Hp']. destruct (IH _ _ _ Hp' E2) as [q Hq]. exists q.
  destruct us as [|v us]; [exact Hq|]. replace (last (u :: v :: us) t) with (last (v :: us) u); [exact Hq|].
  clear. revert v. induction us as [|w us IH]; intros v; [reflexivity|]. exact (IH w).
Qed.
Example C46_example :
  match construct_selection_dag ex_utilities (pack ex_prototype) (pack ex_target) with
  | Ok d => exists p, is_path (edges d) (initial_state d) p (SAt SelectUnmatched 7 0)
  | Err _ => False
  end /\ nth_error (walks (labelled ex_prototype)) 7 = Some (WEnd 8).
Proof.
  split; [|reflexivity]. rewrite construct_selection_ok by exact (proj1 (proj2 ex_plain)). cbn [edges initial_state].
  apply (follows (all_edges ex_utilities (walks (labelled ex_prototype)) (walks (labelled ex_target)))
    [SAt SkipUnselected 1 0; SAt SkipUnselected 2 0; SAt SkipUnselected 3 0; SAt SkipUnselected 4 0; SAt SkipUnselected 5 0;
     SAt SelectUnmatched 6 0; SAt SelectUnmatched 7 0] _ [] (SAt SkipUnselected 0 0)); [apply path_nil|vm_compute; reflexivity].
Qed.
Print Assumptions C46_ending_and_continuing_offered.

(** ** C58 (selection DAG).  What was built can be pruned and packed, provided
    the prototype has no exits, as the documentation asks. *)
Theorem C58_selection_dag_packs :
  forall (M : Type) (md : EqDec M) (U : text -> M -> utilities) (prototype target : list (node M)),
    Forall no_exit (walks (labelled prototype)) -> ~ begins_with_end (walks (labelled prototype)) ->
    exists d r, construct_selection_dag U (pack prototype) (pack target) = Ok d /\ pack_selection_dag (prune_to_reachable d) = Ok r.
Proof.
  intros M md U ns ts F B.
  destruct (selection_packs U (walks (labelled ns)) (walks (labelled ts)) B F) as [r Hr].
  { intros q ds H. eapply selection_increasing; [apply labelled_numbered|exact H]. }
  eexists. exists r. split; [now apply construct_selection_ok|exact Hr].
Qed.
(** With an exit there is no path at all. *)
Theorem C58_selection_exits_leave_no_path :
  forall (M : Type) (md : EqDec M) (U : text -> M -> utilities) (prototype target : list (node M)) d,
    ~ Forall no_exit (walks (labelled prototype)) ->
    construct_selection_dag U (pack prototype) (pack target) = Ok d -> forall p, ~ complete_path d p.
Proof.
  intros M md U ns ts d F Hd p Hp. destruct (C45_selection_paths_credit_occurrences M md U ns ts d p Hd Hp) as [k [_ H]].
  now apply selection_no_exit in H.
Qed.
Theorem C58_selection_dag_packs_refuted :
  exists (prototype target : list (node nat)) d,
    construct_selection_dag ex_utilities (pack prototype) (pack target) = Ok d /\ pack_selection_dag (prune_to_reachable d) = Err IndexError.
Proof.
  exists [Token [97] 0; EarlyExit], [Token [97] 0]. eexists. split; [apply construct_selection_ok; exact (fun C => C)|]. vm_compute. reflexivity.
Qed.
Example C58_selection_example :
  Forall no_exit (walks (labelled ex_prototype)) /\ ~ begins_with_end (walks (labelled ex_prototype)) /\
  ~ Forall no_exit (walks (labelled [Token [97] 0; EarlyExit])).
Proof. splits; try apply ex_plain. intros F. inversion F as [|? ? _ G]; subst. inversion G as [|? ? C _]; subst. exact C. Qed.
Print Assumptions C58_selection_dag_packs.
Print Assumptions C58_selection_exits_leave_no_path.
Print Assumptions C58_selection_dag_packs_refuted.

(** ** C59 (selection DAG).  Whatever regions the constraint DAG allows can be
    selected for every target, found or not. *)
Theorem C59_every_choice_selects :
  forall (M : Type) (md : EqDec M) (U : text -> M -> utilities) (prototype : list (node M)) (targets : list (list (node M))) dc pc,
    Forall no_exit (walks (labelled prototype)) -> ~ begins_with_end (walks (labelled prototype)) ->
    Forall (fun target => Forall text_only (labelled target)) targets ->
    construct_constraint_dag (pack prototype) = Ok dc -> complete_path dc pc ->
    Forall (fun target => exists d p, construct_selection_dag U (pack prototype) (pack target) = Ok d /\
              complete_path d p /\ path_assignments p = path_assignments pc /\ exists k, path_cost p = Fin k) targets.
Proof.
  intros M md U ns tss dc pc F B Ht Hd Hp. rewrite construct_ok in Hd. injection Hd as <-.
  apply constraint_paths in Hp; [|apply labelled_numbered].
  eapply Forall_impl; [|exact Ht]. cbn. intros ts Hts. destruct (choice_selection U _ (walks (labelled ts)) _ F Hp) as [k Hk].
  destruct (selection_has_path U _ _ _ _ F (texts_seen _ Hts) Hk) as [p [Hp' [E1 E2]]].
  eexists. exists p. split; [now apply construct_selection_ok|]. splits; eauto.
Qed.
Example C59_selection_example : exists dc pc, construct_constraint_dag (pack ex_prototype) = Ok dc /\ complete_path dc pc.
Proof.
  destruct (constraint_choices (labelled ex_prototype) _ (or_introl (no_regions_chosen _))) as [p [Hp _]].
  eexists. exists p. split; [apply construct_ok|exact Hp].
Qed.
Print Assumptions C59_every_choice_selects.

(** ** C52 (part selection groups).  The groups cost together what the path
    costs, and only selected groups cost anything; the groups about the
    prototype show all its tokens in order, the matched and skipped ones show
    the beginning of the target. *)
Theorem C52_selection_groups :
  forall (M : Type) (md : EqDec M) (U : text -> M -> utilities) (prototype target : list (node M)) d p,
    construct_selection_dag U (pack prototype) (pack target) = Ok d -> complete_path d p ->
    exists groups, extract_match_groups p (pack prototype) (pack target) = Ok groups /\
      csum (map sg_cost groups) = path_cost p /\
      csum (map sg_cost (filter (fun g => unselected (sg_category g)) groups)) = Fin 0 /\
      concat (map sg_tokens (filter (fun g => of_prototype (sg_category g)) groups)) = shown_tokens prototype /\
      (exists rest, shown_tokens target = concat (map sg_tokens (filter (fun g => of_target (sg_category g)) groups)) ++ rest).
Proof.
  intros M md U ns ts d p Hd Hp.
  assert (B : ~ begins_with_end (walks (labelled ns))).
  { intros B. rewrite (construct_selection_fails U ns ts B) in Hd. discriminate. }
  rewrite (construct_selection_ok U ns ts B) in Hd. injection Hd as <-. unfold complete_path in Hp. cbn in Hp.
  destruct (path_groups U ns ts p Hp) as [gs [E [H1 [H2 [H3 H4]]]]]. exists gs. auto.
Qed.
#[local] Instance decision_eqdec : EqDec decision.
Proof. intros x y. repeat decide equality. Defined.
Definition ex_dag : dag sstate decision (option sinfo) :=
  match construct_selection_dag ex_utilities (pack ex_prototype) (pack ex_target) with Ok d => d | Err _ => mkDag SFinal [] SFinal end.
(** Look for "a", do not pay for it. *)
Definition ex_part : dag sstate decision (option sinfo) :=
  mkDag (initial_state ex_dag) (filter (fun e => negb (eqb (dest e) (SAt SelectUnmatched 1 0))) (edges ex_dag)) (final_state ex_dag).
Definition ex_path : list sedge := Eval vm_compute in find_path ex_part ex_decisions.
Lemma part_path (d : dag sstate decision (option sinfo)) f p : complete_path (mkDag (initial_state d) (filter f (edges d)) (final_state d)) p -> complete_path d p.
Proof. intros H. eapply is_path_incl; [|exact H]. intros e He. eapply is_path_In in He; [|exact H]. now apply filter_In in He. Qed.
Example C52_selection_example :
  construct_selection_dag ex_utilities (pack ex_prototype) (pack ex_target) = Ok ex_dag /\ complete_path ex_dag ex_path /\
  shown_tokens ex_prototype = [[97]; [98]; [99]] /\
  match extract_match_groups ex_path (pack ex_prototype) (pack ex_target) with
  | Ok gs => map (fun g => (sg_tokens g, sg_category g)) gs =
      [([[122]], Some SkipInTarget); ([[97]], Some SelectMatched); ([[98]], Some SkipUnselected); ([[99]], Some SelectUnmatched)]
  | Err _ => False
  end.
Proof.
  splits; [vm_compute; reflexivity| |reflexivity|vm_compute; reflexivity].
  apply (part_path ex_dag (fun e => negb (eqb (dest e) (SAt SelectUnmatched 1 0)))).
  replace ex_path with (find_path ex_part ex_decisions) by (vm_compute; reflexivity).
  apply (find_path_sound ex_part). vm_compute. reflexivity.
Qed.
Print Assumptions C52_selection_groups.
