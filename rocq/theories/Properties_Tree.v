(** C21-C33: node trees, transforms, packing, walks, log-prob alignment and
    subtokenisation.  Specification vocabulary: [SeqNodes.v] ([node_at],
    [path_lt], [wanted], [nested_groups]), [Transforms.v] section Spec
    ([no_decisions], [events], [after_chars], [expand], [unscope]),
    [WalkOrder.v] ([item_lt]), [PackedSeqProofs.v] ([balanced]),
    [TokenProb.v] ([touching], [nodes_of]), [Subtokenizer.v] ([cut], [pieces]),
    [TreePlaces.v] ([token_or_group], [no_exit], [children_at]). *)

From Coq Require Import List Bool Arith Lia ZArith QArith Qcanon Sorting.Sorted.
From Verif Require Import Base SeqNodes Transforms WalkOrder PackedSeq PackedSeqProofs
  TokenProb Subtokenizer TreePlaces.
Import ListNotations.
Close Scope Qc_scope. Close Scope Q_scope. Open Scope nat_scope.

(** A tree used by the examples: a decoration, a token and nested groups. *)
Definition ex_tree : list (node nat) :=
  [Deco [32]; Token [97; 98] 1; Group [Token [99] 2; Group [Deco [10]; Token [100] 3] 4] 5; Token [101] 6].

(** ** C21.  Transforms keep the text. *)
Theorem C21_transforms_keep_text :
  forall (M : Type) (ns : list (node M)) (within at_start allow_empty : bool)
         (filt : node M -> bool) (scope : M),
    render (flatten_groups ns) = render ns /\
    render (flatten_singleton_groups ns) = render ns /\
    render (insert_early_exit ns within at_start) = render ns /\
    render (insert_regions ns allow_empty filt) = render ns /\
    render (insert_single scope ns) = render ns /\
    render (strip_decision_nodes ns) = render ns.
Proof.
  intros. splits; auto using flatten_groups_text, flatten_singleton_text, insert_early_exit_text,
    insert_regions_text, insert_single_text, strip_text.
Qed.
Example C21_example :
  render (insert_regions (insert_early_exit ex_tree true true) true (fun _ => true))
  = [32; 97; 98; 99; 10; 100; 101].
Proof. reflexivity. Qed.
Print Assumptions C21_transforms_keep_text.

(** ** C22.  Stripping undoes insertion. *)
Theorem C22_strip_undoes_insertions :
  forall (M : Type) (ops : list (insertion (M:=M))) (ns : list (node M)),
    no_decisions ns ->
    strip_decision_nodes (fold_left (fun s op => apply_insertion op s) ops ns) = ns.
Proof. intros M ops ns H. rewrite strip_insertions. now apply strip_no_decisions_id. Qed.

Theorem C22_strip_idempotent :
  forall (M : Type) (ns : list (node M)),
    no_decisions (strip_decision_nodes ns) /\
    strip_decision_nodes (strip_decision_nodes ns) = strip_decision_nodes ns.
Proof.
  intros M ns. split; [apply strip_output_no_decisions|].
  apply strip_no_decisions_id, strip_output_no_decisions.
Qed.

(** Single-node insertion leaves its scope groups behind; apart from those the
    tree is the original. *)
Theorem C22_strip_single_insertion :
  forall (M : Type) (dec : EqDec M) (scope : M) (ns : list (node M)),
    Forall (no_scope scope) ns -> no_decisions ns ->
    map (unscope scope) (strip_decision_nodes (insert_single scope ns)) = ns.
Proof.
  intros M dec scope ns Hs Hd. unfold no_decisions in Hd.
  induction ns as [|n ns IH]; auto.
  inversion Hs; inversion Hd; subst.
  destruct (unscope_strip_single scope n) as [x [E1 E2]]; auto.
  unfold strip_decision_nodes, insert_single in *. cbn [map flat_map].
  rewrite E1. cbn [app map]. now rewrite E2, IH.
Qed.
Theorem C22_single_insertion_exact_refuted :
  ~ (forall (scope : nat) (ns : list (node nat)), no_decisions ns ->
       strip_decision_nodes (insert_single scope ns) = ns).
Proof.
  intros H. specialize (H 0 [Token [97] 1]). discriminate H.
  repeat constructor.
Qed.
Example C22_example :
  no_decisions ex_tree /\ Forall (no_scope 0) ex_tree /\
  fold_left (fun s op => apply_insertion op s)
    [InsertExit true false; InsertRegions true (fun _ => true)] ex_tree <> ex_tree.
Proof. splits; [repeat constructor|repeat constructor; discriminate|discriminate]. Qed.
Print Assumptions C22_strip_undoes_insertions.
Print Assumptions C22_strip_idempotent.
Print Assumptions C22_strip_single_insertion.
Print Assumptions C22_single_insertion_exact_refuted.

(** ** C23.  Flattening keeps the leaves. *)
Theorem C23_flatten_groups :
  forall (M : Type) (ns : list (node M)),
    flatten_groups ns = map item_node (walk_with_paths ns false false []) /\
    Forall (fun n => ~ is_group n) (flatten_groups ns) /\
    flatten_groups (flatten_groups ns) = flatten_groups ns.
Proof.
  intros M ns. splits.
  - unfold walk_with_paths. rewrite walk_leaves. apply flatten_groups_leaves.
  - apply flatten_groups_no_group.
  - pose proof (flatten_groups_no_group ns) as F. induction F as [|n l Hn HF IH]; auto.
    unfold flatten_groups in *. cbn [flat_map]. rewrite IH.
    destruct n; try reflexivity. now destruct Hn.
Qed.
(** Nothing is lost: the recorded match types determine the original tree, and
    no removable group is left. *)
Theorem C23_flatten_singleton_groups :
  forall (M : Type) (ns : list (node M)),
    map expand (flatten_singleton_groups ns) = map Some ns /\
    Forall no_singletons (flatten_singleton_groups ns).
Proof.
  intros M ns. unfold flatten_singleton_groups. split.
  - rewrite map_map. apply map_ext. apply expand_flatten_singleton.
  - rewrite Forall_map, Forall_forall. intros n _. apply flatten_singleton_none.
Qed.
(** In particular different sequences stay different. *)
Theorem C23_flatten_singleton_injective :
  forall (M : Type) (ns ns' : list (node M)),
    flatten_singleton_groups ns = flatten_singleton_groups ns' -> ns = ns'.
Proof.
  intros M ns ns' E. assert (H : map Some ns = map Some ns').
  { rewrite <- !(fun l => proj1 (C23_flatten_singleton_groups M l)). now rewrite E. }
  clear E. revert ns' H. induction ns as [|n ns IH]; intros [|n' ns'] H; try discriminate; auto.
  injection H as -> H. f_equal. auto.
Qed.
Example C23_example :
  flatten_groups ex_tree =
    [Deco [32]; Token [97; 98] 1; Token [99] 2; Deco [10]; Token [100] 3; Token [101] 6] /\
  flatten_singleton_groups [Group [Group [Token [97] 1] 2] 3] = [Token [97] [3; 2; 1]] /\
  flatten_singleton_groups [Group [Deco [97]] 3] = [Group [Deco [97]] [3]].
Proof. splits; reflexivity. Qed.
Print Assumptions C23_flatten_groups.
Print Assumptions C23_flatten_singleton_groups.
Print Assumptions C23_flatten_singleton_injective.

(** ** C24.  Regions sit around eligible siblings. *)
(** Any run of siblings with eligible ends can be made one region. *)
Theorem C24_regions_surround_runs :
  forall (M : Type) (ns1 run ns2 : list (node M)) (x y : node M) mid allow_empty filt,
    (run = [x] /\ x = y \/ run = x :: mid ++ [y]) ->
    eligible filt x = true -> eligible filt y = true ->
    exists A R B,
      insert_regions (ns1 ++ run ++ ns2) allow_empty filt
        = A ++ RegionStart :: R ++ RegionEnd :: B /\
      strip_decision_nodes A = strip_decision_nodes ns1 /\
      strip_decision_nodes R = strip_decision_nodes run /\
      strip_decision_nodes B = strip_decision_nodes ns2.
Proof. exact @insert_regions_surround. Qed.
(** Starts and ends occur nowhere else. *)
Theorem C24_starts_only_before_eligible :
  forall (M : Type) (ns : list (node M)) allow_empty filt A B,
    no_decisions ns -> insert_regions ns allow_empty filt = A ++ RegionStart :: B ->
    (allow_empty = true /\ B = [RegionEnd]) \/
    exists n n' B', In n ns /\ eligible filt n = true /\ strip_decision_nodes [n'] = [n] /\
      B = (if allow_empty then [RegionEnd] else []) ++ n' :: RegionEnd :: B'.
Proof.
  intros M ns a f A B Hd E.
  destruct (insert_regions_starts ns a f A B Hd E) as [H|[n [n' [B' [H1 [H2 [H3 H4]]]]]]]; auto.
  right. exists n, n', B'. splits; auto. unfold strip_decision_nodes. cbn [flat_map].
  now rewrite app_nil_r.
Qed.
Theorem C24_ends_only_after_eligible :
  forall (M : Type) (ns : list (node M)) allow_empty filt A B,
    no_decisions ns -> insert_regions ns allow_empty filt = A ++ RegionEnd :: B ->
    (allow_empty = true /\ exists A', A = A' ++ [RegionStart]) \/
    exists n n' A', In n ns /\ eligible filt n = true /\ strip_decision_nodes [n'] = [n] /\
      A = A' ++ [n'].
Proof.
  intros M ns a f A B Hd E.
  destruct (insert_regions_ends ns a f A B Hd E) as [H|[n [n' [B' [H1 [H2 [H3 H4]]]]]]]; auto.
  right. exists n, n', B'. splits; auto. unfold strip_decision_nodes. cbn [flat_map].
  now rewrite app_nil_r.
Qed.
(** The same holds inside every group, and what opens can close at its level. *)
Theorem C24_every_level :
  forall (M : Type) (ns : list (node M)) allow_empty filt,
    no_decisions ns ->
    (forall cs m, In (Group cs m) ns ->
       In (Group (insert_regions cs allow_empty filt) m) (insert_regions ns allow_empty filt)) /\
    closable (insert_regions ns allow_empty filt) /\
    Forall (everywhere closable) (insert_regions ns allow_empty filt).
Proof.
  intros. splits.
  - intros. now apply insert_regions_children.
  - now apply insert_regions_closable.
  - now apply insert_regions_everywhere.
Qed.
Example C24_example :
  insert_regions [Token [97] 1; Deco [32]; Token [98] 2] true
    (fun n => match n with Token _ 1 => true | _ => false end) =
  [RegionStart; RegionEnd; Token [97] 1; RegionEnd; Deco [32]; Token [98] 2; RegionStart; RegionEnd]
  /\ eligible (fun _ => true) (Token [97] 1) = true /\ no_decisions ex_tree.
Proof. splits; [reflexivity|reflexivity|repeat constructor]. Qed.
Print Assumptions C24_regions_surround_runs.
Print Assumptions C24_starts_only_before_eligible.
Print Assumptions C24_ends_only_after_eligible.
Print Assumptions C24_every_level.

(** ** C25.  Truncating a prefix. *)
Theorem C25_truncate_text :
  forall (M : Type) (ns : list (node M)) (k : nat),
    render (truncate_prefix_at_offset ns (Z.of_nat k)) = skipn k (render ns).
Proof. exact @truncate_text. Qed.
(** Every surviving character and later decision keeps its enclosing groups, and
    the result is a suffix of the tree. *)
Theorem C25_truncate_keeps_ancestors :
  forall (M : Type) (ns : list (node M)) (k : nat),
    1 <= k ->
    events (truncate_prefix_at_offset ns (Z.of_nat k)) = after_chars k (events ns) /\
    tree_suffix ns (truncate_prefix_at_offset ns (Z.of_nat k)).
Proof. exact @truncate_events. Qed.
Theorem C25_truncate_zero :
  forall (M : Type) (ns : list (node M)),
    chars_of (events (truncate_prefix_at_offset ns 0)) = chars_of (events ns) /\
    tree_suffix ns (truncate_prefix_at_offset ns 0).
Proof. exact @truncate0_chars. Qed.
(** Findings: offset 0 loses leading decision nodes; a negative offset keeps only
    the end of the first text. *)
Theorem C25_zero_offset_identity_refuted :
  ~ (forall ns : list (node nat), truncate_prefix_at_offset ns 0 = ns).
Proof. intros H. specialize (H [EarlyExit; Token [97] 1]). discriminate. Qed.
Theorem C25_negative_offset_refuted :
  ~ (forall (ns : list (node nat)) (o : Z), (o < 0)%Z ->
       render (truncate_prefix_at_offset ns o) = render ns).
Proof. intros H. specialize (H [Token [97; 98] 1] (-1)%Z eq_refl). discriminate. Qed.
Example C25_example :
  truncate_prefix_at_offset ex_tree 5 = [Group [Group [Token [100] 3] 4] 5; Token [101] 6].
Proof. reflexivity. Qed.
Print Assumptions C25_truncate_text.
Print Assumptions C25_truncate_keeps_ancestors.
Print Assumptions C25_truncate_zero.
Print Assumptions C25_zero_offset_identity_refuted.
Print Assumptions C25_negative_offset_refuted.

(** ** C26.  Packing is lossless. *)
Theorem C26_pack_lossless :
  forall (M : Type) (ns : list (node M)),
    unpack (pack ns) = Ok ns /\
    render_ids (pack ns) (root_sequence (pack ns)) = Ok (render ns).
Proof. intros. split; [apply unpack_pack|apply render_pack]. Qed.
Example C26_example : length (preorder_traversal (pack ex_tree)) = 8.
Proof. reflexivity. Qed.
Print Assumptions C26_pack_lossless.

(** ** C27.  Preorder indices, parents and paths agree. *)
(** The [k]-th node in preorder of the tree (with its path) is the [k]-th packed
    identifier, has index [k], and all conversions agree. *)
Theorem C27_preorder_agrees :
  forall (M : Type) (ns : list (node M)) (k : nat),
    length (preorder_traversal (pack ns)) = length (walk_with_paths ns true false []) /\
    forall n q tg, nth_error (walk_with_paths ns true false []) k = Some (n, q, tg) ->
    node_at ns q = Some n /\
    exists i : node_id,
      nth_error (preorder_traversal (pack ns)) k = Some i /\
      pre i = k /\
      path_from_preorder_index (pack ns) k = Ok q /\
      node_id_from_node_path (pack ns) q = Ok i /\
      build (fuel_of (pack ns)) (pack ns) i = Ok n.
Proof.
  intros M ns k. split; [apply walk_root_length|]. intros n q tg E. split.
  - apply nth_error_In in E. apply (walk_spec true false ns [] n q tg) in E. tauto.
  - eapply preorder_agrees; eauto.
Qed.
(** The stored parent is the node one step up, and precedes its children. *)
Theorem C27_parents :
  forall (M : Type) (ns : list (node M)) (k : nat) (q : path),
    path_from_preorder_index (pack ns) k = Ok q ->
    exists pos, nth_error (parents (pack ns)) k = Some pos /\
      match parent pos with
      | Some j => j < k /\ exists q', path_from_preorder_index (pack ns) j = Ok q' /\
                                      q = q' ++ [offset pos]
      | None => q = [offset pos]
      end.
Proof.
  intros M ns k q E. destruct (parent_step ns k q E) as [pos [Hp Hm]].
  exists pos. split; auto. destruct (parent pos) as [j|] eqn:Ej; auto. split; auto.
  eapply parent_before; eauto.
  destruct (preorder_cases ns k q E) as [n [tg Hn]]. rewrite walk_root_length.
  apply nth_error_Some. congruence.
Qed.
Theorem C27_subtrees_contiguous :
  forall (M : Type) (ns : list (node M)) (i j k : nat) (p r q : path),
    path_from_preorder_index (pack ns) i = Ok p ->
    path_from_preorder_index (pack ns) j = Ok (p ++ r) ->
    path_from_preorder_index (pack ns) k = Ok q ->
    i <= k <= j -> exists r', q = p ++ r'.
Proof. exact @subtree_contiguous. Qed.
Example C27_example :
  map (path_from_preorder_index (pack ex_tree)) [2; 4; 6] = [Ok [2]; Ok [2; 1]; Ok [2; 1; 1]].
Proof. reflexivity. Qed.
Print Assumptions C27_preorder_agrees.
Print Assumptions C27_parents.
Print Assumptions C27_subtrees_contiguous.

(** ** C28.  In-order traversal. *)
Theorem C28_in_order_complete :
  forall (M : Type) (ns : list (node M)) (strip : bool),
    exists l, in_order_traversal (pack ns) strip = Ok l /\
      Forall2 (fun v w =>
                 visit_tag (fst v) = item_tag w /\
                 path_from_preorder_index (pack ns) (pre (snd v)) = Ok (item_path w) /\
                 node_id_from_node_path (pack ns) (item_path w) = Ok (snd v) /\
                 build (fuel_of (pack ns)) (pack ns) (snd v) = Ok (item_node w))
        l (filter (fun w => negb strip || not_deco w) (walk_with_paths ns true true [])).
Proof. exact @in_order_walk. Qed.
Theorem C28_in_order_balanced :
  forall (M : Type) (ns : list (node M)) (strip : bool) l,
    in_order_traversal (pack ns) strip = Ok l -> balanced l.
Proof. exact @in_order_balanced. Qed.
Example C28_example :
  map (fun r => length r)
    (match in_order_traversal (pack ex_tree) true with Ok l => [l] | Err _ => [] end) = [8].
Proof. reflexivity. Qed.
Print Assumptions C28_in_order_complete.
Print Assumptions C28_in_order_balanced.

(** ** C29.  Walks. *)
(** Exactly the requested items, each with its own path ... *)
Theorem C29_walk_items :
  forall (M : Type) (before after : bool) (ns : list (node M)) prefix n q tg,
    In (n, prefix ++ q, tg) (walk_with_paths ns before after prefix) <->
    node_at ns q = Some n /\ wanted before after n tg.
Proof. exact @walk_spec. Qed.
Theorem C29_walk_prefix :
  forall (M : Type) (before after : bool) (ns : list (node M)) prefix x,
    In x (walk_with_paths ns before after prefix) -> exists q, item_path x = prefix ++ q.
Proof.
  intros M b a ns prefix x Hx.
  pose proof (walk_list_extends b a ns prefix 0) as F. rewrite Forall_forall in F.
  destruct (F x Hx) as [j [q [_ Hq]]]. eauto.
Qed.
(** ... in reading order, each once. *)
Theorem C29_walk_order :
  forall (M : Type) (ns : list (node M)) (before after : bool) prefix,
    StronglySorted item_lt (walk_with_paths ns before after prefix) /\
    NoDup (walk_with_paths ns before after prefix) /\
    (after = false -> increasing (map item_path (walk_with_paths ns before after prefix))).
Proof.
  intros M ns b a prefix. splits.
  - apply walk_sorted.
  - pose proof (walk_sorted ns b a prefix) as S. induction S as [|x l S IH F]; constructor; auto.
    intros Hin. rewrite Forall_forall in F. apply (item_lt_irrefl x). auto.
  - intros ->. apply walk_list_increasing.
Qed.
Example C29_example :
  map item_path (walk_with_paths ex_tree true true [7]) =
  [[7;0]; [7;1]; [7;2]; [7;2;0]; [7;2;1]; [7;2;1;0]; [7;2;1;1]; [7;2;1]; [7;2]; [7;3]].
Proof. reflexivity. Qed.
Print Assumptions C29_walk_items.
Print Assumptions C29_walk_prefix.
Print Assumptions C29_walk_order.

(** ** C30.  Depth. *)
(** [compute_depth] is one plus the longest chain of nested groups. *)
Theorem C30_compute_depth :
  forall (M : Type) (ns : list (node M)),
    1 <= compute_depth ns /\
    nested_groups ns (compute_depth ns - 1) /\
    forall k, nested_groups ns k -> k <= compute_depth ns - 1.
Proof.
  intros M ns. splits.
  - apply compute_depth_pos.
  - apply depth_attained.
  - intros k H. apply depth_upper in H. lia.
Qed.
Theorem C30_pack_depth :
  forall (M : Type) (ns : list (node M)),
    Forall no_empty_groups ns -> depth (pack ns) = compute_depth ns.
Proof. exact @pack_depth_exact. Qed.
Theorem C30_pack_depth_bounds :
  forall (M : Type) (ns : list (node M)),
    depth (pack ns) <= compute_depth ns <= depth (pack ns) + 1.
Proof. exact @pack_depth_bounds. Qed.
(** Finding: an innermost empty group is counted by [compute_depth] only. *)
Theorem C30_pack_depth_empty_groups_refuted :
  ~ (forall ns : list (node nat), depth (pack ns) = compute_depth ns).
Proof. intros H. specialize (H [Group [] 0]). discriminate. Qed.
Example C30_example : compute_depth ex_tree = 3 /\ Forall no_empty_groups ex_tree.
Proof. split; [reflexivity|repeat constructor; discriminate]. Qed.
Print Assumptions C30_compute_depth.
Print Assumptions C30_pack_depth.
Print Assumptions C30_pack_depth_bounds.
Print Assumptions C30_pack_depth_empty_groups_refuted.

(** ** C31.  Probability spans. *)
(** Any sequence of advances reads the text from left to right, each character
    once. *)
Theorem C31_spans_are_consecutive :
  forall (toks : list (text * Qc)) (ns : list nat),
    let '(r, st) := advance_all (build_helper toks) ns in
    length r = length ns /\
    concat (map fst r) = firstn (list_sum ns) (text_of toks) /\
    text_of (rev st) = skipn (list_sum ns) (text_of toks) /\
    (forall i n o p, nth_error ns i = Some n -> nth_error r i = Some (o, p) ->
       o = firstn n (skipn (list_sum (firstn i ns)) (text_of toks))).
Proof.
  intros toks ns. pose proof (advance_all_text ns (build_helper toks)) as H.
  destruct (advance_all (build_helper toks) ns) as [r st]. unfold build_helper in H.
  now rewrite rev_involutive in H.
Qed.
(** The log prob of a non-empty span is the sum over the model tokens it touches. *)
Theorem C31_span_log_probs :
  forall (toks : list (text * Qc)) (ns : list nat) i n o p,
    Forall (fun n => 0 < n) ns ->
    nth_error ns i = Some n ->
    nth_error (fst (advance_all (build_helper toks) ns)) i = Some (o, p) ->
    p = touching toks (list_sum (firstn i ns)) n.
Proof.
  intros toks ns i n o p HF En Er.
  apply (advance_all_log_probs toks ns 0 (build_helper toks)) with (i := i) (n := n) (o := o) (p := p); auto.
  unfold build_helper. now rewrite rev_involutive, trim_0.
Qed.
(** Finding: an empty span is not free; it reports the next token's log prob. *)
Theorem C31_empty_span :
  forall (st : stack) t p rest, rev st = (t, p) :: rest ->
    let '(o, q, st') := advance_by_length st 0 in
    o = [] /\ q = p /\ text_of (rev st') = text_of (rev st).
Proof. exact advance_zero. Qed.
Definition ex_toks : list (text * Qc) :=
  [([32; 97], Q2Qc (-1)); ([98; 99; 10], Q2Qc (-2)); ([100], Q2Qc (-3)); ([101], Q2Qc (-4))].
Example C31_example :
  map fst (fst (advance_all (build_helper ex_toks) [1; 2; 1])) = [[32]; [97; 98]; [99]] /\
  touching ex_toks 1 2 = Q2Qc (-3) /\ Forall (fun n => 0 < n) [1; 2; 1].
Proof. splits; [reflexivity|apply Qc_is_canon; reflexivity|repeat constructor]. Qed.
Print Assumptions C31_spans_are_consecutive.
Print Assumptions C31_span_log_probs.
Print Assumptions C31_empty_span.

(** ** C32.  Alignment. *)
Theorem C32_align_succeeds_iff_spells :
  forall (M : Type) (toks : list (text * Qc)) (ns : list (node M)) (must_consume_all : bool),
    (exists r, align_token_log_probs toks (pack ns) must_consume_all = Ok r) <->
    exists rest, text_of toks = render ns ++ rest /\ (must_consume_all = true -> rest = []).
Proof.
  intros M toks ns must. rewrite <- align_success.
  destruct (align_token_log_probs toks (pack ns) must); simpl; split; eauto; try discriminate.
  intros [? E]; discriminate.
Qed.
(** One entry per text token, keyed by its position in the preorder. *)
Theorem C32_one_entry_per_token :
  forall (M : Type) (toks : list (text * Qc)) (ns : list (node M)) must r,
    align_token_log_probs toks (pack ns) must = Ok r ->
    NoDup (map fst r) /\
    forall k, In k (map fst r) <->
              exists t m, nth_error (map item_node (walk_with_paths ns true false [])) k = Some (Token t m).
Proof.
  intros M toks ns must r E. rewrite (align_keys _ _ _ _ E). unfold token_indices, nodes_of. split.
  - apply NoDup_filter, seq_NoDup.
  - intros k. rewrite filter_In, in_seq. split.
    + intros [_ H]. destruct (nth_error _ k) as [[]|]; try discriminate. eauto.
    + intros [t [m H]]. split; [|now rewrite H].
      split; [lia|]. apply nth_error_Some. congruence.
Qed.
(** Each entry is the sum over the model tokens its text touches. *)
Theorem C32_entry_values :
  forall (M : Type) (toks : list (text * Qc)) (ns : list (node M)) must r k t m,
    Forall (fun n => is_text n = true -> own_text n <> []) (nodes_of ns) ->
    align_token_log_probs toks (pack ns) must = Ok r ->
    nth_error (nodes_of ns) k = Some (Token t m) ->
    In (k, touching toks (chars_before ns k) (length t)) r.
Proof. exact @align_values. Qed.
Theorem C32_flatten_lists_text :
  forall (M : Type) (toks : list (text * Qc)) (ns : list (node M)) must r,
    align_token_log_probs toks (pack ns) must = Ok r ->
    exists l, flatten_token_log_probs_from_parsed (pack ns) r = Ok l /\
      map fst l = map own_text (filter is_text (nodes_of ns)) /\
      text_of l = render ns.
Proof. exact @flatten_ok. Qed.
Example C32_example :
  match align_token_log_probs ex_toks (pack ex_tree) true with
  | Ok r => map fst r | Err _ => [] end = [1; 3; 6; 7] /\
  Forall (fun n => is_text n = true -> own_text n <> []) (nodes_of ex_tree).
Proof. split; [vm_compute; reflexivity|repeat constructor; simpl; discriminate]. Qed.
Print Assumptions C32_align_succeeds_iff_spells.
Print Assumptions C32_one_entry_per_token.
Print Assumptions C32_entry_values.
Print Assumptions C32_flatten_lists_text.

(** ** C33.  Subtokenisation. *)
(** Lossless whatever Python's character classes are. *)
Theorem C33_lossless :
  forall (isupper islower isdigit isspace : nat -> bool) (code : text),
    concat (code_to_tokens isupper islower isdigit isspace code) = code.
Proof. exact tokens_concat. Qed.
(** Cut exactly where the rules say (' ' and '\t' being whitespace), and no piece
    is empty. *)
Theorem C33_cuts_exactly :
  forall (isupper islower isdigit isspace : nat -> bool),
    isspace SPACE = true -> isspace TAB = true ->
    forall code,
    code_to_tokens isupper islower isdigit isspace code =
      pieces (cut isupper islower isdigit isspace code) 0 code /\
    Forall (fun t => t <> []) (code_to_tokens isupper islower isdigit isspace code).
Proof.
  intros u l d s Hs Ht code. rewrite tokens_pieces by assumption.
  split; auto. apply pieces_nonempty.
Qed.
(** ASCII character classes. *)
Definition a_upper c := (65 <=? c) && (c <=? 90).
Definition a_lower c := (97 <=? c) && (c <=? 122).
Definition a_digit c := (48 <=? c) && (c <=? 57).
Definition a_space c := (c =? 32) || ((9 <=? c) && (c <=? 13)).
Example C33_example : (* "HTTPServer2  x" *)
  a_space SPACE = true /\ a_space TAB = true /\
  code_to_tokens a_upper a_lower a_digit a_space
    [72;84;84;80;83;101;114;118;101;114;50;32;32;120] =
  [[72;84;84;80]; [83;101;114;118;101;114]; [50]; [32;32]; [120]].
Proof. splits; reflexivity. Qed.
Print Assumptions C33_lossless.
Print Assumptions C33_cuts_exactly.

(** ** C56.  Where early exits go. *)
(** Every token and every group is directly followed by an exit, there is no
    other exit (but the one asked for at the start), and this holds inside the
    groups exactly if asked for. *)
Theorem C56_exits_after_tokens_and_groups :
  forall (M : Type) (ns : list (node M)) (within at_start : bool), no_exit ns ->
    (forall A n B, insert_early_exit ns within at_start = A ++ n :: B -> token_or_group n ->
       exists B', B = EarlyExit :: B') /\
    (forall A B, insert_early_exit ns within at_start = A ++ EarlyExit :: B ->
       (A = [] /\ at_start = true) \/ exists A' n, A = A' ++ [n] /\ token_or_group n) /\
    (at_start = true <-> exists B, insert_early_exit ns within at_start = EarlyExit :: B) /\
    (forall cs m, In (Group cs m) (insert_early_exit ns within at_start) <->
       exists cs0, In (Group cs0 m) ns /\ cs = if within then insert_early_exit cs0 true false else cs0).
Proof. intros M. exact early_exit_places. Qed.
Example C56_example :
  no_exit ex_tree /\
  insert_early_exit ex_tree false true =
  [EarlyExit; Deco [32]; Token [97; 98] 1; EarlyExit;
   Group [Token [99] 2; Group [Deco [10]; Token [100] 3] 4] 5; EarlyExit; Token [101] 6; EarlyExit].
Proof.
  split; [|reflexivity]. intros [C|[C|[C|[C|[]]]]]; discriminate.
Qed.
Print Assumptions C56_exits_after_tokens_and_groups.

(** ** C57.  Looking up paths. *)
(** For every path whatsoever: the path of a node leads to its number, the path
    of a group to the numbers of its children; any other path is refused. *)
Theorem C57_path_lookup :
  forall (M : Type) (ns : list (node M)) (p : path),
    match children_at ns p with
    | Some cs => exists ids, subsequence_from_node_path (pack ns) p = Ok ids /\
                   mapM (build (fuel_of (pack ns)) (pack ns)) ids = Ok cs
    | None => subsequence_from_node_path (pack ns) p = Err ValueError
    end /\
    match node_at ns p with
    | Some n => exists i, node_id_from_node_path (pack ns) p = Ok i /\
                  build (fuel_of (pack ns)) (pack ns) i = Ok n
    | None => node_id_from_node_path (pack ns) p =
                Err (match p, children_at ns (removelast p) with _ :: _, Some _ => IndexError | _, _ => ValueError end)
    end.
Proof. intros M. exact path_lookup. Qed.
Example C57_example :
  children_at ex_tree [2; 1] = Some [Deco [10]; Token [100] 3] /\
  node_at ex_tree [2; 1; 1] = Some (Token [100] 3) /\
  (exists i, node_id_from_node_path (pack ex_tree) [2; 1; 1] = Ok i) /\
  node_id_from_node_path (pack ex_tree) [2; 1; 7] = Err IndexError /\
  node_id_from_node_path (pack ex_tree) [1; 0] = Err ValueError.
Proof. splits; try reflexivity. eexists. vm_compute. reflexivity. Qed.
Print Assumptions C57_path_lookup.
