(** C52 and C48 (edit HTML): what is shown of an edit path.  Specification
    vocabulary: [text_at] (the text of the node with a given number), [spells]
    (which texts a list of reports may show for an action), [differ], [of_kind]
    in [EditReportProofs.v]; [document], [under] in [Html.v]. *)

From Coq Require Import String List Bool Arith Lia ZArith QArith Qcanon.
From Verif Require Import Base Graph GatedDag SeqNodes PackedSeq PackedSeqProofs Numbered Decisions
  RegionDecisions RegionProofs Html EditDag EditScript EditSpec EditProofs EditTheorems EditReport EditReportProofs Search Properties_Edit.
Import ListNotations.
Close Scope Qc_scope. Close Scope Q_scope. Close Scope Z_scope. Open Scope nat_scope.

(** The example: a path that replaces "x" in a region by "y" and, outside, "a"
    by "b". *)
#[local] Instance decision_eqdec : EqDec decision.
Proof. intros x y. repeat decide equality. Defined.
Definition ex_decisions_through : list decision :=
  [((0, RegionShouldStart), DTrue); ((1, NodeInRegion), DTrue); ((2, RegionShouldEnd), DTrue); ((3, NodeInRegion), DFalse);
   ((4, NodeInRegion), DFalse); ((5, ShouldEarlyExit), DFalse); ((6, NodeInRegion), DFalse); ((7, NodeInRegion), DFalse)].
Definition ex_dag : dag estate decision (option einfo) :=
  match construct_edit_dag ex_costs (pack ex_prototype) (pack ex_target) with Ok d => d | Err _ => mkDag EFinal [] EFinal end.
Definition ex_path : list eedge := Eval vm_compute in find_path ex_dag ex_decisions_through.
Lemma ex_path_ok : construct_edit_dag ex_costs (pack ex_prototype) (pack ex_target) = Ok ex_dag /\
  complete_path ex_dag ex_path /\ path_assignments ex_path = ex_decisions_through.
Proof.
  split; [vm_compute; reflexivity|].
  replace ex_path with (find_path ex_dag ex_decisions_through) by (vm_compute; reflexivity).
  apply find_path_sound. vm_compute. reflexivity.
Qed.

(** ** C52.  The groups cost together what the path costs, and so does the
    printed total; neighbouring groups differ in action or confidence. *)
Theorem C52_groups_account_for_the_cost :
  forall (M : Type) (md : EqDec M) (costs : parameters) (prototype target : list (node M)) d p,
    construct_edit_dag costs (pack prototype) (pack target) = Ok d -> complete_path d p ->
    exists groups, group_edit_sequence p (pack prototype) (pack target) = Ok groups /\
      csum (map g_cost groups) = path_cost p /\ differ groups /\
      forall line finish, extract_edit_sequence_text line finish p (pack prototype) (pack target) =
        Ok (concat (map line groups) ++ finish (path_cost p)).
Proof.
  intros M md P ns ts d p Hd Hp. pose proof (path_honest P ns ts d p Hd Hp) as H.
  pose proof (groups_ok ns ts p H) as E. eexists. split; [exact E|].
  pose proof (groups_total ns ts p H _ E) as T. split; [exact T|]. split; [exact (groups_differ ns ts p H _ E)|].
  intros line finish. unfold extract_edit_sequence_text. rewrite E. cbn [bind]. now rewrite fold_left_costs, cadd_0_l, T.
Qed.
Example C52_groups_example :
  match group_edit_sequence ex_path (pack ex_prototype) (pack ex_target) with
  | Ok gs => map (fun g => (g_text g, g_action g, g_conf g)) gs =
      [([], Some StartEditing, Some (Some High)); ([], Some StartLowConfidence, Some None); ([120], Some Delete, Some (Some Low));
       ([121; 32], Some Insert, Some None); ([40], Some Keep, Some (Some High)); ([], Some StartEditing, Some (Some High));
       ([97], Some Delete, Some (Some High)); ([98], Some Insert, Some None); ([41], Some Keep, Some (Some High))]
  | Err _ => False
  end.
Proof. vm_compute. reflexivity. Qed.
(** The kept and deleted groups together spell the prototype, up to the exit
    if the path exits early. *)
Theorem C52_groups_spell_the_prototype :
  forall (M : Type) (md : EqDec M) (costs : parameters) (prototype target : list (node M)) d p groups,
    construct_edit_dag costs (pack prototype) (pack target) = Ok d -> complete_path d p ->
    group_edit_sequence p (pack prototype) (pack target) = Ok groups ->
    exists rest, render prototype = g_texts stays_or_goes groups ++ rest /\
      (Forall (fun x => ~ stops x) (map info p) -> rest = []).
Proof.
  intros M md P ns ts d p gs Hd Hp E. pose proof (path_honest P ns ts d p Hd Hp) as H.
  rewrite (groups_prototype ns ts p H gs E), <- text_nodes_render.
  destruct (C43_edit_paths_are_scripts M md P ns ts d p Hd Hp) as [[[F [E1 E2]]|[b [x [E1 [S [F [[r E2] _]]]]]]] _].
  - exists []. rewrite app_nil_r, <- E1. auto.
  - exists (concat (map (text_at (labelled ns)) r)). rewrite E2, map_app, concat_app. split; auto.
    intros G. rewrite Forall_forall in G. exfalso. apply (G x); auto. rewrite E1. apply in_or_app. right. now left.
Qed.
(** The groups of an action show exactly the nodes reported with it, in order,
    possibly with decorations of the same side between them. *)
Theorem C52_groups_show_every_node :
  forall (M : Type) (md : EqDec M) (costs : parameters) (prototype target : list (node M)) d p groups a,
    construct_edit_dag costs (pack prototype) (pack target) = Ok d -> complete_path d p ->
    group_edit_sequence p (pack prototype) (pack target) = Ok groups ->
    a = Keep \/ a = Delete \/ a = Insert ->
    spells a (info_text (labelled prototype) (labelled target)) (map info p) (g_texts (is a) groups).
Proof. intros M md P ns ts d p gs a Hd Hp E Ha. exact (groups_spell ns ts p (path_honest P ns ts d p Hd Hp) gs a E Ha). Qed.

(** The metrics: for every action and confidence that occurs, its cost, its
    characters and its number of edges; the costs add up to that of the path. *)
Theorem C52_metrics_account_for_the_path :
  forall (M : Type) (md : EqDec M) (costs : parameters) (prototype target : list (node M)) d p,
    construct_edit_dag costs (pack prototype) (pack target) = Ok d -> complete_path d p ->
    exists metrics, extract_edit_summary_metrics p (pack prototype) (pack target) = Ok metrics /\
      (forall a c,
         let kind := filter (of_kind a c) p in
         (kind = [] -> assoc (metric a c "cost") metrics = None /\ assoc (metric a c "chars") metrics = None /\
            assoc (metric a c "edges") metrics = None) /\
         (kind <> [] -> assoc (metric a c "cost") metrics = Some (path_cost kind) /\
            assoc (metric a c "chars") metrics =
              Some (csum (map (fun e => count (List.length (match info e with
                Some f => info_text (labelled prototype) (labelled target) f | None => [] end))) kind)) /\
            assoc (metric a c "edges") metrics = Some (count (List.length kind)))) /\
      NoDup (map fst metrics) /\
      (forall name, In name (map fst metrics) -> exists a c w, In w ["cost"; "chars"; "edges"]%string /\ name = metric a c w) /\
      csum (map (fun kind => value (metric (fst kind) (snd kind) "cost") metrics) (list_prod all_actions all_confs)) = path_cost p.
Proof.
  intros M md P ns ts d p Hd Hp. pose proof (path_honest P ns ts d p Hd Hp) as H. pose proof (path_told ns ts p H) as Ht.
  destruct (metrics_values (pack ns) (pack ts) _ p Ht []) as [m [E Hm]]. exists m. split; [exact E|].
  assert (V : forall a c w, assoc (metric_of (a, c, w)) m = match filter (of_kind a c) p with [] => None
    | es => Some (summed (info_text (labelled ns) (labelled ts)) w es) end).
  { intros a c w. rewrite Hm. destruct (filter (of_kind a c) p); [reflexivity|]. unfold value. cbn [assoc]. now rewrite cadd_0_l. }
  splits.
  - intros a c kind. split; intros K.
    + pose proof (V a c QCost) as V1. pose proof (V a c QChars) as V2. pose proof (V a c QEdges) as V3. fold kind in V1, V2, V3. rewrite K in *. auto.
    + pose proof (V a c QCost) as V1. pose proof (V a c QChars) as V2. pose proof (V a c QEdges) as V3. fold kind in V1, V2, V3.
      rewrite <- (summed_edges (info_text (labelled ns) (labelled ts))).
      destruct kind as [|e es] eqn:Ek; [now destruct K|]. splits; auto.
      etransitivity; [exact V2|]. f_equal. unfold summed. f_equal. rewrite <- Ek.
      assert (F : Forall (fun e => info e <> None) kind).
      { unfold kind. apply Forall_forall. intros e' He'. apply filter_In in He' as [_ He']. unfold of_kind in He'. destruct (info e'); discriminate. }
      rewrite <- Ek in *. clear - F. induction F as [|e' l Hn F IH]; [reflexivity|]. cbn [map]. f_equal; [|exact IH].
      cbn [amount]. destruct (info e'); [reflexivity|congruence].
  - eapply metrics_nodup; [exact E|constructor].
  - intros n Hn. destruct (metrics_keys (pack ns) (pack ts) p [] m E (fun _ F => match F with end) n Hn) as [[[a c] w] ->].
    exists a, c, (quantity_name w). split; [destruct w; cbn; tauto|reflexivity].
  - rewrite <- (kinds_total (info_text (labelled ns) (labelled ts)) p).
    + f_equal. apply map_ext. intros [a c]. unfold value. cbn [fst snd]. pose proof (V a c QCost) as V1.
      change (metric a c "cost") with (metric_of (a, c, QCost)). rewrite V1. now destruct (filter (of_kind a c) p).
    + unfold effects in H. rewrite Forall_map in H. eapply Forall_impl; [|exact H]. intros e He N. unfold honest in He. cbn [effect_of snd fst] in He. now rewrite N in He.
Qed.
Example C52_metrics_example :
  match extract_edit_summary_metrics ex_path (pack ex_prototype) (pack ex_target) with
  | Ok m => assoc (metric Insert None "chars") m = Some (count 2) /\ assoc (metric Keep (Some High) "edges") m = Some (count 2) /\
            metric Keep (Some High) "edges" = chars "KEEP_HIGH_CONFIDENCE_edges"
  | Err _ => False
  end.
Proof. vm_compute. auto. Qed.
Print Assumptions C52_groups_account_for_the_cost.
Print Assumptions C52_groups_spell_the_prototype.
Print Assumptions C52_groups_show_every_node.
Print Assumptions C52_metrics_account_for_the_path.

(** ** C48 (edit HTML).  Whatever the texts, the prefix and the marker, the
    markup after the style sheet is well-formed: reading it back gives the
    prefix, then the text of every group (the marker for the start of an
    edit), each under a span whose class names describe the group. *)
Theorem C48_edit_html :
  forall (M St : Type) (prototype target : storage M) (p : list (edge St decision (option einfo))) prefix marker style groups,
    group_edit_sequence p prototype target = Ok groups ->
    exists body names,
      extract_edit_sequence_html p prototype target prefix marker style = Ok ((if eqb style [] then edit_style else style) ++ body) /\
      Forall2 describes groups names /\
      document body = Some (under [prefix_span; edit_root_span] prefix ++
        flat_map (fun x => under [class_span (snd x); edit_root_span] (shown_text marker (fst x))) (combine groups names)).
Proof. intros M St S T p prefix marker style gs H. exact (edit_html S T p prefix marker style gs H). Qed.
Example C48_edit_example :
  exists s, extract_edit_sequence_html ex_path (pack ex_prototype) (pack ex_target) (chars "<") (chars "*") (chars "%") = Ok (chars "%" ++ s) /\
    s = chars "<span class=""edit_sequence_root""><span class=""prefix"">&lt;</span><span class=""start_editing high_confidence"">*</span><span class=""delete low_confidence"">x</span><span class=""insert was_low_confidence"">y </span><span class=""keep high_confidence"">(</span><span class=""start_editing high_confidence"">*</span><span class=""delete high_confidence"">a</span><span class=""insert was_high_confidence"">b</span><span class=""keep high_confidence"">)</span></span>".
Proof. eexists. split; vm_compute; reflexivity. Qed.
Print Assumptions C48_edit_html.
