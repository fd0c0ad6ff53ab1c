(** C42, C43, C44, C58, C59 (edit DAG): edits of a prototype into a target.
    Specification vocabulary: [EditSpec.v] ([edit], [text_nodes], [token_nodes],
    [prototype_side], [target_side]) and [ConstraintSpec.v] ([region_choice]). *)

From Coq Require Import List Bool Arith Lia ZArith QArith Qcanon Sorting.Sorted.
From Verif Require Import Base Graph GatedDag SeqNodes PackedSeq PackedSeqProofs Numbered Decisions Convert
  ConstraintDag ConstraintSpec ConstraintProofs ConstraintPack EditDag EditScript EditView EditSpec EditProofs EditTheorems.
Import ListNotations.
Close Scope Qc_scope. Close Scope Q_scope. Close Scope Z_scope. Open Scope nat_scope.

(** The examples: "x" can be marked, then "(a)" from which one can exit; the
    target is "y (b)". *)
Definition ex_costs : parameters :=
  mkParams (Q2Qc 1) (Q2Qc 2) (Q2Qc (1 # 2)) (Q2Qc (1 # 2)) (Q2Qc 1) (Q2Qc (3 # 4)) (Q2Qc 4) (Q2Qc (1 # 4)).
Definition ex_prototype : list (node nat) :=
  [RegionStart; Token [120] 0; RegionEnd; Group [Token [40] 1; EarlyExit; Token [97] 0; Token [41] 1] 2].
Definition ex_target : list (node nat) :=
  [Token [121] 0; Deco [32]; Group [Token [40] 1; Token [98] 0; Token [41] 1] 2].
(** Replace "x" in a region, enter the group, keep "(" and exit. *)
Definition ex_decisions_out : list decision :=
  [((0, RegionShouldStart), DTrue); ((1, NodeInRegion), DTrue); ((2, RegionShouldEnd), DTrue);
   ((3, NodeInRegion), DFalse); ((4, NodeInRegion), DFalse); ((5, ShouldEarlyExit), DTrue)].
Lemma ex_edit : exists k, edit ex_costs (labelled ex_prototype) (labelled ex_target) k ex_decisions_out /\ this k = (3 # 2)%Q.
Proof.
  eexists. split.
  - right. cbn. eapply (ed_pass _ _ _ _ _ [_]); [discriminate|apply pa_start|].
    apply ed_begin.
    eapply (ed_remove _ _ _ _ _ _ [_]); [apply rm_token, rm_nil|].
    eapply (ed_pass _ _ _ _ _ [_]); [discriminate|apply pa_end|].
    apply ed_add; [discriminate|exact I|]. apply ed_deco.
    apply ed_group_exit. apply ed_keep. apply ed_exit. discriminate.
  - vm_compute. reflexivity.
Qed.

(** ** C42 (edit DAG).  Building never raises. *)
Theorem C42_edit_dag_ordered :
  forall (M : Type) (md : EqDec M) (costs : parameters) (prototype target : list (node M)),
    exists d, construct_edit_dag costs (pack prototype) (pack target) = Ok d /\ topological (edges d).
Proof.
  intros M md P ns ts. eexists. split; [apply construct_edit_ok|]. apply all_topological; apply labelled_numbered.
Qed.
Example C42_edit_example :
  match construct_edit_dag ex_costs (pack ex_prototype) (pack ex_target) with
  | Ok d => 100 <? List.length (edges d) = true | Err _ => False end.
Proof. vm_compute. reflexivity. Qed.
Print Assumptions C42_edit_dag_ordered.

(** ** C43.  What a path reports as kept or deleted is the prototype, what it
    reports as kept or inserted is the target: every text node once and in
    order; up to the exit if the path exits early.  Kept tokens have the same
    text and type. *)
Theorem C43_edit_paths_are_scripts :
  forall (M : Type) (md : EqDec M) (costs : parameters) (prototype target : list (node M)) d p,
    construct_edit_dag costs (pack prototype) (pack target) = Ok d -> complete_path d p ->
    let shown := map info p in
    let from := flat_map text_nodes (labelled prototype) in
    let to := flat_map text_nodes (labelled target) in
    ((Forall (fun x => ~ stops x) shown /\ prototype_side shown = from /\ target_side shown = to) \/
     (exists before x, shown = before ++ [x] /\ stops x /\ Forall (fun x => ~ stops x) before /\
        (exists rest, from = prototype_side shown ++ rest) /\ (exists rest, to = target_side shown ++ rest))) /\
    (forall f, In (Some f) shown -> act f = Keep ->
       exists i j token, proto_node f = Some i /\ target_node f = Some j /\
         In (i, token) (flat_map token_nodes (labelled prototype)) /\
         In (j, token) (flat_map token_nodes (labelled target))).
Proof.
  intros M md P ns ts d p Hd Hp shown from to. rewrite construct_edit_ok in Hd. injection Hd as <-.
  unfold complete_path in Hp. cbn in Hp. unfold shown. rewrite <- effects_reports.
  assert (K : forall tr : list effect, Forall (true_keep (labelled ns) (labelled ts)) (reports tr) ->
    forall f, In (Some f) (reports tr) -> act f = Keep ->
       exists i j token, proto_node f = Some i /\ target_node f = Some j /\
         In (i, token) (flat_map token_nodes (labelled ns)) /\ In (j, token) (flat_map token_nodes (labelled ts))).
  { intros tr F f Hf Hk. rewrite Forall_forall in F. exact (F _ Hf Hk). }
  apply path_script in Hp as [Hs|[tr [E Hs]]]; try apply labelled_numbered.
  - pose proof (sc_sides _ _ _ _ _ _ _ Hs) as [[r1 S1] [[r2 S2] S3]]. split.
    + right. destruct S3 as [l [x [E [S F]]]]. exists l, x. splits; eauto.
    + apply K. now apply sc_keeps in Hs.
  - pose proof (sc_sides _ _ _ _ _ _ _ Hs) as [S1 [S2 S3]]. cbn in S1, S2, S3. rewrite E, reports_app. split.
    + left. rewrite psides_app, tsides_app. cbn. rewrite !app_nil_r. splits; auto.
      apply Forall_app. split; auto.
    + rewrite <- reports_app. apply K. rewrite reports_app. apply Forall_app. split; [now apply sc_keeps in Hs|]. repeat constructor.
Qed.
(** No node is reported twice. *)
Theorem C43_nodes_reported_once :
  forall (M : Type) (prototype : list (node M)), StronglySorted lt (flat_map text_nodes (labelled prototype)).
Proof.
  intros M ns.
  assert (G : forall n (l : list (lnode M)), lsizes l <= n -> forall p, numbered p l -> within p (p + lsizes l) (flat_map text_nodes l)).
  { induction n as [|n IH]; intros [|x l] Hs p Hn; try apply within_nil; rewrite lsizes_cons in *; pose proof (lsize_pos x) as Px; [lia|].
    cbn [flat_map]. inversion Hn as [|? ? ? E1 E2 E3|? i cs m ? E1 E2 E3]; subst.
    - assert (H1 : lsize x = 1) by (destruct x; auto; now destruct (E2 i cs m)).
      apply IH in E3; [|lia]. apply (within_app _ (S (number x))); [|eapply within_mono; [exact E3|lia|lia]|lia].
      destruct x as [i t|i t m|i|i|i|i cs m]; cbn; try apply within_nil; try (split; repeat constructor; unfold number; cbn; lia).
      now destruct (E2 i cs m).
    - rewrite lsize_group in *. apply IH in E3; [|lia]. apply IH in E2; [|lia].
      apply (within_app _ (S (pre i + lsizes cs))); [|eapply within_mono; [exact E3|lia|lia]|lia].
      cbn [text_nodes]. eapply within_mono; [exact E2|lia|lia]. }
  apply (G _ _ (le_n _) 0 (labelled_numbered ns)).
Qed.
Example C43_example :
  flat_map text_nodes (labelled ex_prototype) = [1; 4; 6; 7] /\ flat_map text_nodes (labelled ex_target) = [0; 1; 3; 4; 5] /\
  match construct_edit_dag ex_costs (pack ex_prototype) (pack ex_target) with
  | Ok d => exists p, complete_path d p /\ path_assignments p = ex_decisions_out
  | Err _ => False
  end.
Proof.
  split; [reflexivity|]. split; [reflexivity|]. rewrite construct_edit_ok. destruct ex_edit as [k [Hk _]].
  apply edits_are_paths in Hk as [p [Hp [_ Ep]]]. exists p. split; [exact Hp|exact Ep].
Qed.
Print Assumptions C43_edit_paths_are_scripts.
Print Assumptions C43_nodes_reported_once.

(** ** C44.  The costs and decisions of the paths are those of the edits. *)
Theorem C44_edit_dag_exact :
  forall (M : Type) (md : EqDec M) (costs : parameters) (prototype target : list (node M)),
    exists d, construct_edit_dag costs (pack prototype) (pack target) = Ok d /\
      (forall p, complete_path d p ->
         exists k, path_cost p = Fin k /\ edit costs (labelled prototype) (labelled target) k (path_assignments p)) /\
      (forall k choice, edit costs (labelled prototype) (labelled target) k choice ->
         exists p, complete_path d p /\ path_cost p = Fin k /\ path_assignments p = choice).
Proof.
  intros M md P ns ts. eexists. split; [apply construct_edit_ok|]. split.
  - intros p Hp. apply paths_are_edits; try apply labelled_numbered. exact Hp.
  - intros k choice Hc. exact (edits_are_paths _ _ _ _ _ Hc).
Qed.
Example C44_example :
  exists k, edit ex_costs (labelled ex_prototype) (labelled ex_target) k ex_decisions_out /\ this k = (3 # 2)%Q.
Proof. exact ex_edit. Qed.
Print Assumptions C44_edit_dag_exact.

(** ** C58 (edit DAG).  What was built can be pruned and packed, provided the
    target has no region or exit nodes, as the documentation asks. *)
Theorem C58_edit_dag_packs :
  forall (M : Type) (md : EqDec M) (costs : parameters) (prototype target : list (node M)),
    Forall text_only (labelled target) ->
    exists d r, construct_edit_dag costs (pack prototype) (pack target) = Ok d /\
      pack_edit_dag (prune_to_reachable d) = Ok r.
Proof.
  intros M md P ns ts Ht. destruct (edit_packs P ns ts _ Ht (construct_edit_ok P ns ts)) as [r Hr].
  eexists. exists r. split; [apply construct_edit_ok|exact Hr].
Qed.
(** Otherwise there may be no path, and packing raises. *)
Theorem C58_edit_dag_packs_refuted :
  exists (prototype target : list (node nat)) d,
    construct_edit_dag ex_costs (pack prototype) (pack target) = Ok d /\
    (forall p, ~ complete_path d p) /\ pack_edit_dag (prune_to_reachable d) = Err IndexError.
Proof.
  exists [Token [97] 0], [EarlyExit]. eexists. split; [apply construct_edit_ok|]. split; [|vm_compute; reflexivity].
  intros p Hp.
  destruct (paths_are_edits ex_costs _ _ p (labelled_numbered [Token [97] 0]) (labelled_numbered [@EarlyExit nat]) Hp) as [k [_ [H|H]]]; cbn in H;
    repeat match goal with
           | H : edited _ _ _ _ _ _ _ _ |- _ => inversion H; clear H; subst
           | H : passes _ _ _ _ _ _ |- _ => inversion H; clear H; subst
           | H : removed _ _ _ _ _ _ |- _ => inversion H; clear H; subst
           | H : text_only _ |- _ => now destruct H
           end.
Qed.
Example C58_edit_example : Forall text_only (labelled ex_target).
Proof. repeat constructor. Qed.
Print Assumptions C58_edit_dag_packs.
Print Assumptions C58_edit_dag_packs_refuted.

(** ** C59.  Whatever regions and exit the constraint DAG allows, every target
    can be edited under exactly those decisions: no suggestion with its
    targets leaves the combined optimisation problem without a solution. *)
Theorem C59_every_choice_meets_every_target :
  forall (M : Type) (md : EqDec M) (costs : parameters) (prototype : list (node M)) (targets : list (list (node M))) dc pc,
    Forall (fun target => Forall text_only (labelled target)) targets ->
    construct_constraint_dag (pack prototype) = Ok dc -> complete_path dc pc ->
    Forall (fun target => exists d p, construct_edit_dag costs (pack prototype) (pack target) = Ok d /\
              complete_path d p /\ path_assignments p = path_assignments pc /\ exists k, path_cost p = Fin k) targets.
Proof.
  intros M md P ns tss dc pc Ht Hd Hp. rewrite construct_ok in Hd. injection Hd as <-.
  apply constraint_paths in Hp; [|apply labelled_numbered].
  eapply Forall_impl; [|exact Ht]. cbn. intros ts Hts. destruct (choice_edit P _ (labelled ts) _ Hts Hp) as [k Hk].
  apply edits_are_paths in Hk as [p [Hp' [E1 E2]]]. eexists. exists p. split; [apply construct_edit_ok|]. splits; eauto.
Qed.
(** And there always is such a choice. *)
Theorem C59_some_choice_exists :
  forall (M : Type) (prototype : list (node M)),
    exists dc pc, construct_constraint_dag (pack prototype) = Ok dc /\ complete_path dc pc /\ path_cost pc = Fin 0.
Proof.
  intros M ns. destruct (constraint_choices (labelled ns) _ (or_introl (no_regions_chosen _))) as [p [Hp _]].
  eexists. exists p. split; [apply construct_ok|]. split; [exact Hp|].
  apply zero_cost, Forall_forall. intros e He. eapply is_path_In in He; [|exact Hp].
  pose proof (constraint_plain (labelled ns)) as F. rewrite Forall_forall in F. auto.
Qed.
Example C59_example : exists dc pc, construct_constraint_dag (pack ex_prototype) = Ok dc /\ complete_path dc pc.
Proof. destruct (C59_some_choice_exists nat ex_prototype) as [dc [pc [H1 [H2 _]]]]. eauto. Qed.
Print Assumptions C59_every_choice_meets_every_target.
Print Assumptions C59_some_choice_exists.
