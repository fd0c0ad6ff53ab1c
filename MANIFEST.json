{
 "claims": [
  {
   "property": "C01",
   "status": "proved",
   "theorems": [
    "C01_add_edge_history",
    "C01_add_edges_accepts_exactly_ordered",
    "C01_rejection_is_ValueError_refuted",
    "C01_accepted_is_acyclic_refuted",
    "C01_no_self_loop_topological"
   ],
   "note": "KeyError instead of ValueError and self-loops are findings (refuted theorems)"
  },
  {
   "property": "C02",
   "status": "proved",
   "theorems": [
    "C02_prune_preserves_finite_paths",
    "C02_reachable_states",
    "C02_without_order_refuted"
   ],
   "note": ""
  },
  {
   "property": "C03",
   "status": "proved",
   "theorems": [
    "C03_prune_jit_agrees",
    "C03_without_order_refuted"
   ],
   "note": ""
  },
  {
   "property": "C04",
   "status": "proved",
   "theorems": [
    "C04_rewrite_isomorphic",
    "C04_rewrite_sound_under_collisions",
    "C04_no_paths_lost_refuted",
    "C04_no_path_is_out_of_bounds"
   ],
   "note": ""
  },
  {
   "property": "C05",
   "status": "proved",
   "theorems": [
    "C05_packing_preserves_paths",
    "C05_variables"
   ],
   "note": ""
  },
  {
   "property": "C06",
   "status": "proved",
   "theorems": [
    "C06_each_variable_once_in_order"
   ],
   "note": ""
  },
  {
   "property": "C07",
   "status": "proved",
   "theorems": [
    "C07_packed_layout"
   ],
   "note": ""
  },
  {
   "property": "C08",
   "status": "proved",
   "theorems": [
    "C08_in_order_iff_accepted",
    "C08_out_of_order_rejected",
    "C08_unpruned_in_order_accepted_refuted"
   ],
   "note": "iff for pruned DAGs; without pruning a dead-end variable gives KeyError (refuted theorem)"
  },
  {
   "property": "C09",
   "status": "proved",
   "theorems": [
    "C09_tables_exact",
    "C09_make_fully_valid"
   ],
   "note": ""
  },
  {
   "property": "C10",
   "status": "proved",
   "theorems": [
    "C10_min_marginals_exact"
   ],
   "note": ""
  },
  {
   "property": "C11",
   "status": "proved",
   "theorems": [
    "C11_minimal_cost_all_strategies",
    "C11_from_middle_without_variables_refuted"
   ],
   "note": "FROM_MIDDLE on a DAG without variables fails its assertion (refuted theorem)"
  },
  {
   "property": "C12",
   "status": "proved",
   "theorems": [
    "C12_extracted_path_optimal",
    "C12_infeasible_rejected_refuted"
   ],
   "note": "infinite least cost: no error, a one-edge list is returned (refuted theorem); finite case proved"
  },
  {
   "property": "C13",
   "status": "proved",
   "theorems": [
    "C13_constrained_best_path",
    "C13_unknown_constraint"
   ],
   "note": ""
  },
  {
   "property": "C14",
   "status": "proved",
   "theorems": [
    "C14_objectives_are_lower_bounds",
    "C14_lower_bounds_for_agreeing_paths",
    "C14_no_variables_refuted"
   ],
   "note": "systems without any variable fail their assertion (refuted theorem)"
  },
  {
   "property": "C15",
   "status": "proved",
   "theorems": [
    "C15_update_never_lowers_dual",
    "C15_reported_objectives_ascend"
   ],
   "note": ""
  },
  {
   "property": "C16",
   "status": "proved",
   "theorems": [
    "C16_penalties_conserved",
    "C16_conserved_on_solutions",
    "C16_fresh_system",
    "C16_strict_refuted"
   ],
   "note": "entries that are infinite are exempt (refuted theorem for the strict form); sum conserved wherever finite, and on every finite-cost solution"
  },
  {
   "property": "C17",
   "status": "proved",
   "theorems": [
    "C17_greedy_cost_is_true",
    "C17_greedy_cost_of_agreeing_paths"
   ],
   "note": ""
  },
  {
   "property": "C18",
   "status": "proved",
   "theorems": [
    "C18_constraints_charge_violations",
    "C18_unknown_raises"
   ],
   "note": ""
  },
  {
   "property": "C19",
   "status": "proved",
   "theorems": [
    "C19_vectors_decode",
    "C19_constraining_reproduces"
   ],
   "note": ""
  },
  {
   "property": "C20",
   "status": "proved",
   "theorems": [
    "C20_terminates",
    "C20_round_trips_until_plateau",
    "C20_timeout_refuted"
   ],
   "note": "termination and plateau rule proved; the soft timeout does not stop after the current sweep: two or more variables always get at least two sweeps (refuted theorem)"
  },
  {
   "property": "C21",
   "status": "proved",
   "theorems": [
    "C21_transforms_keep_text"
   ],
   "note": ""
  },
  {
   "property": "C22",
   "status": "proved",
   "theorems": [
    "C22_strip_undoes_insertions",
    "C22_strip_idempotent",
    "C22_strip_single_insertion",
    "C22_single_insertion_exact_refuted"
   ],
   "note": "single-node insertion leaves region_scope groups; exact equality refuted, equality up to those groups proved"
  },
  {
   "property": "C23",
   "status": "proved",
   "theorems": [
    "C23_flatten_groups",
    "C23_flatten_singleton_groups",
    "C23_flatten_singleton_injective"
   ],
   "note": ""
  },
  {
   "property": "C24",
   "status": "proved",
   "theorems": [
    "C24_regions_surround_runs",
    "C24_starts_only_before_eligible",
    "C24_ends_only_after_eligible",
    "C24_every_level"
   ],
   "note": ""
  },
  {
   "property": "C25",
   "status": "proved",
   "theorems": [
    "C25_truncate_text",
    "C25_truncate_keeps_ancestors",
    "C25_truncate_zero",
    "C25_zero_offset_identity_refuted",
    "C25_negative_offset_refuted"
   ],
   "note": "offset 0 drops leading decision nodes and negative offsets misbehave (refuted theorems); text claim proved for every k>=0"
  },
  {
   "property": "C26",
   "status": "proved",
   "theorems": [
    "C26_pack_lossless"
   ],
   "note": ""
  },
  {
   "property": "C27",
   "status": "proved",
   "theorems": [
    "C27_preorder_agrees",
    "C27_parents",
    "C27_subtrees_contiguous"
   ],
   "note": ""
  },
  {
   "property": "C28",
   "status": "proved",
   "theorems": [
    "C28_in_order_complete",
    "C28_in_order_balanced"
   ],
   "note": ""
  },
  {
   "property": "C29",
   "status": "proved",
   "theorems": [
    "C29_walk_items",
    "C29_walk_prefix",
    "C29_walk_order"
   ],
   "note": ""
  },
  {
   "property": "C30",
   "status": "proved",
   "theorems": [
    "C30_compute_depth",
    "C30_pack_depth",
    "C30_pack_depth_bounds",
    "C30_pack_depth_empty_groups_refuted"
   ],
   "note": "pack reports one less than compute_depth when an innermost group is empty (refuted); equal without empty groups"
  },
  {
   "property": "C31",
   "status": "proved",
   "theorems": [
    "C31_spans_are_consecutive",
    "C31_span_log_probs",
    "C31_empty_span"
   ],
   "note": "log-prob claim for non-empty spans; empty spans characterised separately"
  },
  {
   "property": "C32",
   "status": "proved",
   "theorems": [
    "C32_align_succeeds_iff_spells",
    "C32_one_entry_per_token",
    "C32_entry_values",
    "C32_flatten_lists_text"
   ],
   "note": ""
  },
  {
   "property": "C33",
   "status": "proved",
   "theorems": [
    "C33_lossless",
    "C33_cuts_exactly"
   ],
   "note": ""
  },
  {
   "property": "C34",
   "status": "proved",
   "theorems": [
    "C34_codec_faithful",
    "C34_encode_succeeds",
    "C34_nonunique_refuted"
   ],
   "note": "distinct codes and decode-after-encode proved for every history of unique registrations; the non_unique registrations of parse_and_maybe_preprocess break it (refuted theorem)"
  },
  {
   "property": "C35",
   "status": "proved",
   "theorems": [
    "C35_correction_balances",
    "C35_nothing_added_iff_balanced",
    "C35_matching_accepts"
   ],
   "note": ""
  },
  {
   "property": "C36",
   "status": "proved",
   "theorems": [
    "C36_match_covers",
    "C36_split_covers",
    "C36_split_nested_covers",
    "C36_check_exact",
    "C36_pseudo_parse",
    "C36_uncorrected_refuted"
   ],
   "note": "matching, splitting, the range check and the whole of pseudo_parse (over an abstract lexer whose token types are determined by the text); without error correction a stray closer is dropped (refuted theorem); the python branch of parse_and_maybe_preprocess is covered by C37 and C36_split_nested_covers but not composed"
  },
  {
   "property": "C37",
   "status": "proved",
   "theorems": [
    "C37_desugar",
    "C37_no_final_newline_refuted"
   ],
   "note": "for tokens ending in the newline token, as pseudo_parse guarantees; otherwise tokens are dropped (refuted theorem)"
  },
  {
   "property": "C38",
   "status": "proved",
   "theorems": [
    "C38_succeeds_iff_convertible",
    "C38_errors",
    "C38_text",
    "C38_parse_trees_convert",
    "C38_reversed_refuted"
   ],
   "note": "text preserved for all forward ranges; reversed ranges pass the boundary check (refuted theorem)"
  },
  {
   "property": "C39",
   "status": "proved",
   "theorems": [
    "C39_match_pair_range",
    "C39_split_exact",
    "C39_fallbacks_on_parses",
    "C39_pydocstring",
    "C39_closing_bracket_refuted"
   ],
   "note": "range proved for all; match-pair index overshoots the closing bracket by one token (refuted theorem)"
  },
  {
   "property": "C40",
   "status": "proved",
   "theorems": [
    "C40_largest_dividing_candidate",
    "C40_no_evidence",
    "C40_last_dividing_candidate",
    "C40_observed_widths",
    "C40_unsorted_refuted"
   ],
   "note": "over the token types and raw texts of the parse; candidates must be sorted for 'largest' (refuted otherwise)"
  },
  {
   "property": "C41",
   "status": "proved",
   "theorems": [
    "C41_constraint_dag_exact",
    "C41_one_decision_per_node"
   ],
   "note": "Independent grammar region_choice in ConstraintSpec.v; both directions, zero cost, early-exit marks, strictly increasing decisions."
  },
  {
   "property": "C42",
   "status": "proved",
   "theorems": [
    "C42_edit_dag_ordered",
    "C42_constraint_dag_ordered",
    "C42_selection_dag_ordered",
    "C42_selection_dag_refuted"
   ],
   "note": "All three builders. The selection builder raises UnboundLocalError, not an order error, when the prototype's first in-order node is a region end (refuted theorem for 'never raises')."
  },
  {
   "property": "C43",
   "status": "proved",
   "theorems": [
    "C43_edit_paths_are_scripts",
    "C43_nodes_reported_once"
   ],
   "note": ""
  },
  {
   "property": "C44",
   "status": "proved",
   "theorems": [
    "C44_edit_dag_exact"
   ],
   "note": ""
  },
  {
   "property": "C45",
   "status": "proved",
   "theorems": [
    "C45_selection_paths_credit_occurrences",
    "C45_selection_dag_exact"
   ],
   "note": "Independent inductive `selection` in SelectionSpec.v; every path is a selection unconditionally, every selection is a path for prototypes without exits and targets of text only."
  },
  {
   "property": "C46",
   "status": "proved",
   "theorems": [
    "C46_ending_and_continuing_offered"
   ],
   "note": "For every reached state, with no restriction on the prototype."
  },
  {
   "property": "C47",
   "status": "proved",
   "theorems": [
    "C47_regions_shown",
    "C47_text"
   ],
   "note": "shown is stated over nodes and decisions only; text, flags, marker, agreement with per-token decisions, prefix under early exit."
  },
  {
   "property": "C48",
   "status": "proved",
   "theorems": [
    "C48_regions_html",
    "C48_edit_html"
   ],
   "note": "render_regions_to_html and extract_edit_sequence_html; the embedded style sheets are constants and not read back."
  },
  {
   "property": "C49",
   "status": "proved",
   "theorems": [
    "C49_break_even_at_the_precision",
    "C49_regions_below_the_precision"
   ],
   "note": "The token is a group of its own with a region around it, as the wrapper builds it; the four utilities are the least costs over all paths of the modelled edit DAG, not formulas. Exact rational arithmetic."
  },
  {
   "property": "C50",
   "status": "proved",
   "theorems": [
    "C50_token_probability",
    "C50_intellicode",
    "C50_max_average",
    "C50_characters",
    "C50_lines",
    "C50_rules_determine_the_exit",
    "C50_constraints_single_out_a_choice",
    "C50_prefix_shown",
    "C50_rules_name_exits",
    "C50_unknown_exit_refused",
    "C50_with_regions_refuted"
   ],
   "note": "Each rule is stated over the preorder nodes; exp(x) < threshold is an arbitrary test on log probabilities (so every threshold is covered), log probabilities are exact rationals, -inf is not modelled. Constraints fit exactly one allowed choice when the prototype offers no regions, which is when the wrapper builds these baselines; C50_with_regions_refuted shows why it must."
  },
  {
   "property": "C51",
   "status": "proved",
   "theorems": [
    "C51_calls_extracted",
    "C51_calls_occur_in_the_text",
    "C51_baselines_fit_and_show",
    "C51_choices_feasible",
    "C51_utilities_break_even",
    "C51_context_only_refuted",
    "C51_baselines_refuted",
    "C51_trees_are_spaced"
   ],
   "note": "Calls found are the (unique) calls of the specification CallSpec.v, in text order; the marked-up groups have the stated shape; the three baselines exist, fit an allowed choice and show the stated parts whenever decorations in front of a group are white space (C51_baselines_refuted: they fail otherwise); all allowed choices are selectable for every target. Finding: at prediction location 0 the first suggestion token counts as context (C51_context_only_refuted). For every text in C++, Java, JavaScript, plain or raw tokens the trees the parser returns meet the white-space condition (C51_trees_are_spaced); for Python it stays a hypothesis."
  },
  {
   "property": "C52",
   "status": "proved",
   "theorems": [
    "C52_groups_account_for_the_cost",
    "C52_groups_spell_the_prototype",
    "C52_groups_show_every_node",
    "C52_metrics_account_for_the_path",
    "C52_selection_groups"
   ],
   "note": "Edit groups, text total, metrics, and the groups of selection paths."
  },
  {
   "property": "C53",
   "status": "proved",
   "theorems": [
    "C53_scaling",
    "C53_scaling_keeps_optima"
   ],
   "note": ""
  },
  {
   "property": "C54",
   "status": "proved",
   "theorems": [
    "C54_partial_commitment_is_safe"
   ],
   "note": ""
  },
  {
   "property": "C55",
   "status": "proved",
   "theorems": [
    "C55_combine_returns",
    "C55_suggestion_is_the_sample",
    "C55_always_suggests_refuted",
    "C55_suggestion_is_the_calls"
   ],
   "note": "For the edit-distance wrappers (with or without regions, with or without early exits) and the call-sequence wrapper, for every parser whose trees spell the text and have no decision nodes (C36-C38 prove this of the pseudo-parser). The solver rounds are bounded by fuel; C55_combine_returns shows that enough fuel always exists and more does not change the result. C55_always_suggests_refuted: without regions a sample that adds only decorations gets the empty result."
  },
  {
   "property": "C56",
   "status": "proved",
   "theorems": [
    "C56_exits_after_tokens_and_groups"
   ],
   "note": ""
  },
  {
   "property": "C57",
   "status": "proved",
   "theorems": [
    "C57_path_lookup"
   ],
   "note": ""
  },
  {
   "property": "C58",
   "status": "proved",
   "theorems": [
    "C58_edit_dag_packs",
    "C58_edit_dag_packs_refuted",
    "C58_constraint_dag_packs",
    "C58_selection_dag_packs",
    "C58_selection_exits_leave_no_path",
    "C58_selection_dag_packs_refuted"
   ],
   "note": "Under the documented restrictions: no region or exit nodes in edit targets, no exits in selection prototypes; refuted otherwise."
  },
  {
   "property": "C59",
   "status": "proved",
   "theorems": [
    "C59_every_choice_meets_every_target",
    "C59_some_choice_exists",
    "C59_every_choice_selects"
   ],
   "note": "Edit DAG and selection DAG."
  },
  {
   "property": "C60",
   "status": "proved",
   "theorems": [
    "C60_edit_utility",
    "C60_call_utility"
   ],
   "note": "Both kinds of wrapper; exact rational arithmetic; `edit` and `selection` are the independent specifications of C44 and C45."
  },
  {
   "property": "C61",
   "status": "proved",
   "theorems": [
    "C61_edit_statistics",
    "C61_call_statistics",
    "C61_rank"
   ],
   "note": "Both kinds of wrapper; exact rational arithmetic. The rank is proved for every call of compute_sample_system_info with a finite true cost."
  },
  {
   "property": "C62",
   "status": "proved",
   "theorems": [
    "C62_token_probabilities",
    "C62_character_offset",
    "C62_example_fraction",
    "C62_depth_cutoff",
    "C62_solving",
    "C62_solved_exactly",
    "C62_baselines"
   ],
   "note": "Exact rational arithmetic; `math.exp(x) < threshold` enters as an arbitrary predicate `low`. That every singled-out token ends up in a region holds only when the dual gap closes and such decisions exist and cost less than the 1e6 penalty, and is proved in that form (C62_solved_exactly)."
  },
  {
   "property": "C63",
   "status": "proved",
   "theorems": [
    "C63_lexing_loses_nothing",
    "C63_simple_tokens",
    "C63_no_strings_in_c_family"
   ],
   "note": "The regular expressions are run by a model of a backtracking matcher (Lexer.v). Hypothesis: below 128, the digits of re's \\d are 0-9. Finding: STRING never matches in the C family (back reference to a foreign group); quoted strings get the type of comments."
  },
  {
   "property": "C64",
   "status": "proved",
   "theorems": [
    "C64_parsing_succeeds",
    "C64_python_empty_refuted",
    "C64_helper_reads_every_text",
    "C64_flattened",
    "C64_inferred_width"
   ],
   "note": "Hypotheses: ASCII digits; the newline is white space; the indentation width is positive. Finding: Python's empty text raises IndexError (C64_python_empty_refuted)."
  },
  {
   "property": "C65",
   "status": "proved",
   "theorems": [
    "C65_combine_raw_text",
    "C65_combine_calls_raw_text",
    "C65_empty_sample_refuted",
    "C65_worth_raw_text",
    "C65_call_worth_raw_text"
   ],
   "note": "Corollaries of C55 and C64. Finding: an empty sample after an empty context raises IndexError in Python."
  },
  {
   "property": "C66",
   "status": "proved",
   "theorems": [
    "C66_call_baselines_raw_text",
    "C66_prefix_baselines",
    "C66_prefix_baselines_raw_text",
    "C66_region_baselines",
    "C66_region_baselines_raw_text",
    "C66_call_baselines"
   ],
   "note": "Hypotheses: ASCII digits; the newline is white space; for region baselines context and generated text are not both empty (the prototype then has nothing to decide). For call baselines: decorations in front of groups are white space, a condition proved of the parser for every language but Python (C66_call_baselines_raw_text). Log probabilities are rationals; comparisons with exp are parameters."
  },
  {
   "property": "C67",
   "status": "proved",
   "theorems": [
    "C67_edit_suggestion_shown",
    "C67_context_required",
    "C67_call_suggestion_shown",
    "C67_edits_shown",
    "C67_calls_shown",
    "C67_edit_utilities_shown",
    "C67_call_utilities_shown",
    "C67_token_probs_shown"
   ],
   "note": "Pages are read by a small HTML reader (ShowSpec.page). How numbers are written (rounding, percentages) is a parameter; the percentage must contain no angle bracket. Aligned values are claimed when no text node is empty."
  },
  {
   "property": "C68",
   "status": "proved",
   "theorems": [
    "C68_edit_evaluation",
    "C68_call_evaluation",
    "C68_call_cost",
    "C68_edit_evaluation_raw_text"
   ],
   "note": "The evaluation system is the one build_system makes for the single true continuation. Finding: EMPTY_ARGS tokens enter the total cost but no counter (C68_call_cost)."
  },
  {
   "property": "C69",
   "status": "proved",
   "theorems": [
    "C69_docstrings_found",
    "C69_docstrings_in_text",
    "C69_order_refuted",
    "C69_empty_refuted"
   ],
   "note": "Findings: positions not in text order (C69_order_refuted); empty text raises IndexError (C69_empty_refuted)."
  },
  {
   "property": "C70",
   "status": "proved",
   "theorems": [
    "C70_render_dag_calls",
    "C70_render_dag_succeeds",
    "C70_reachable_edges",
    "C70_infinite_edge_refuted",
    "C70_lonely_state_refuted",
    "C70_line_within"
   ],
   "note": "Findings: C70_infinite_edge_refuted, C70_lonely_state_refuted."
  },
  {
   "property": "C71",
   "status": "proved",
   "theorems": [
    "C71_svg_shows",
    "C71_view_box",
    "C71_dag_to_svg",
    "C71_label_up_refuted",
    "C71_label_beside_refuted"
   ],
   "note": "Printing of numbers is a parameter. Findings: C71_label_up_refuted, C71_label_beside_refuted."
  },
  {
   "property": "C72",
   "status": "proved",
   "theorems": [
    "C72_bounded_irrational",
    "C72_no_repetition",
    "C72_irrational_refuted",
    "C72_simple_edges",
    "C72_simple_svg"
   ],
   "note": "The sigmoid is a parameter with values in [0,1]; rounding is not modelled."
  },
  {
   "property": "C73",
   "status": "proved",
   "theorems": [
    "C73_constraint_layout",
    "C73_edit_layout",
    "C73_selection_layout"
   ],
   "note": "For sizes that are positive and whose vertical gap is at least the separation, as the defaults are (C73_C74_hypotheses). repr and the printing of costs are parameters; rounding is not modelled."
  },
  {
   "property": "C74",
   "status": "proved",
   "theorems": [
    "C74_constraint_texts",
    "C74_edit_render_data",
    "C74_edit_extras",
    "C74_selection_texts"
   ],
   "note": "As C73; the words of groups and decorations are stated in LayoutSpec.v."
  },
  {
   "property": "C75",
   "status": "proved",
   "theorems": [
    "C75_debug_lines",
    "C75_debug_view_determines_nodes",
    "C75_long_texts_refuted"
   ],
   "note": "repr of texts and the names of match types are parameters (repr without line breaks; for the second claim one-to-one)."
  },
  {
   "property": "C76",
   "status": "proved",
   "theorems": [
    "C76_strip_restores_edge",
    "C76_tracing_changes_only_info",
    "C76_block",
    "C76_traced_edge_shows_frame",
    "C76_nested_refuted",
    "C76_original_info_refuted"
   ],
   "note": "The frame found by traceback.extract_stack is given with each call. Nested blocks and infos with the key original_info: see the two refuted theorems."
  },
  {
   "property": "C77",
   "status": "proved",
   "theorems": [
    "C77_pruned_dags",
    "C77_combine_ignores_region_costs",
    "C77_prefix_parameters_raw_text"
   ],
   "note": "For the two pruning functions that keep states; combine is modelled with use_numba=False (C78 relates it to the compiled wrappers)."
  },
  {
   "property": "C78",
   "status": "proved",
   "theorems": [
    "C78_packed_dags",
    "C78_edit_wrapper_rewrite",
    "C78_edit_wrapper_jit",
    "C78_call_wrapper_rewrite",
    "C78_call_wrapper_jit",
    "C78_edit_raw_text",
    "C78_collisions_refuted",
    "C78_same_edit_pages",
    "C78_same_call_pages",
    "C78_same_edit_evaluation",
    "C78_same_call_evaluation",
    "C78_edit_shown",
    "C78_call_shown"
   ],
   "note": "C78_edit_wrapper_rewrite and C78_call_wrapper_rewrite need the states of each DAG to have different slots; C78_collisions_refuted shows that this is needed. Compilation itself, typed containers and machine integers are not modelled. C78_edit_shown and C78_call_shown carry the result on to the rendered pages and to the evaluation against a known continuation."
  },
  {
   "property": "C79",
   "status": "proved",
   "theorems": [
    "C79_printed_lines",
    "C79_printed_form_determines_tree",
    "C79_empty_node_refuted"
   ],
   "note": "repr of texts is a parameter. C79_empty_node_refuted is the finding about nodes that end at 0."
  },
  {
   "property": "C80",
   "status": "proved",
   "theorems": [
    "C80_copy",
    "C80_match",
    "C80_split_parse",
    "C80_callers_nodes_untouched",
    "C80_check",
    "C80_check_links",
    "C80_match_and_split"
   ],
   "note": "Nodes are compared by address (== of the data class agrees with it on siblings, whose ranges differ). C80_split_parse and C80_callers_nodes_untouched ask for a root without a parent, as split_parse is used; limits on the recursion are existential, for all larger limits."
  },
  {
   "property": "C81",
   "status": "proved",
   "theorems": [
    "C81_worth_at_most_the_text",
    "C81_worth_all_when_true",
    "C81_worst_case",
    "C81_derived_costs_are_sensible",
    "C81_reported_utility",
    "C81_when_all_agree",
    "C81_raw_text"
   ],
   "note": "Costs are exact rationals. The reported bound is the solver's dual bound; the reported utility can be below it when the solver stops early. Also from raw text for every supported language (Properties_RawWorth.v)."
  },
  {
   "property": "C82",
   "status": "proved",
   "theorems": [
    "C82_exit_before_any_text",
    "C82_something_is_suggested",
    "C82_nothing_can_be_suggested",
    "C82_never_worse_than_nothing_refuted"
   ],
   "note": "C82_never_worse_than_nothing_refuted is the finding: after white space the bound can be negative although suggesting nothing would be worth 0."
  },
  {
   "property": "C83",
   "status": "proved",
   "theorems": [
    "C83_same_cost_with_more_options",
    "C83_switches_add_options",
    "C83_reported_utility",
    "C83_raw_text"
   ],
   "note": "C83_reported_utility compares the reported utility with the other result's bound, since the solver may stop before the optimum. Also from raw text for every supported language (Properties_RawWorth.v)."
  },
  {
   "property": "C84",
   "status": "proved",
   "theorems": [
    "C84_dearer_prices",
    "C84_scaled_prices",
    "C84_reported_dearer",
    "C84_reported_scaled",
    "C84_derived_prices",
    "C84_raw_text"
   ],
   "note": "Reported utilities are compared with the other result's bound, since the solver may stop before the optimum. Prices are exact rationals. Also from raw text for every supported language (Properties_RawWorth.v)."
  },
  {
   "property": "C85",
   "status": "proved",
   "theorems": [
    "C85_edit_order",
    "C85_call_order",
    "C85_raw_text",
    "C85_calls_raw_text"
   ],
   "note": "Stated for results that have a solution; utilities are compared with the other result's bound, since the solver may stop before the optimum. Also from raw text for every supported language (Properties_RawWorth.v)."
  },
  {
   "property": "C86",
   "status": "proved",
   "theorems": [
    "C86_selection_worth",
    "C86_nothing_selected",
    "C86_call_utilities_tame",
    "C86_reported_call_worth",
    "C86_when_all_make_the_same_calls",
    "C86_calls_raw_text"
   ],
   "note": "Stated for results that have a solution. Prices are exact rationals. Also from raw text for every supported language (Properties_RawWorth.v)."
  },
  {
   "property": "C87",
   "status": "proved",
   "theorems": [
    "C87_dearer_tokens",
    "C87_scaled_tokens",
    "C87_reported_dearer",
    "C87_reported_scaled",
    "C87_higher_precision_is_dearer",
    "C87_break_even_at_the_precision",
    "C87_base_worth",
    "C87_calls_raw_text"
   ],
   "note": "Stated for results that have a solution; utilities are compared with the other result's bound, since the solver may stop before the optimum. Prices are exact rationals. Also from raw text for every supported language (Properties_RawWorth.v)."
  },
  {
   "property": "C88",
   "status": "proved",
   "theorems": [
    "C88_call_baselines_direct_text",
    "C88_prefix_baselines",
    "C88_region_baselines",
    "C88_call_baselines",
    "C88_prefix_baselines_raw_text",
    "C88_region_baselines_raw_text",
    "C88_call_baselines_raw_text"
   ],
   "note": "The prefix baselines exist only without regions; call baselines under the white-space condition of C51. Utilities on the samples, in exact arithmetic. Also from raw text for every supported language (Properties_RawBaselines.v); there the white-space condition is computable, and is proved outside Python (C88_call_baselines_direct_text)."
  },
  {
   "property": "C89",
   "status": "proved",
   "theorems": [
    "C89_decorations_are_white_space",
    "C89_visible_text_is_in_tokens"
   ],
   "note": "The first part needs no hypothesis on the character classes. Tokens of string literals (subtokens) and brackets inserted by error correction are not claimed to be visible."
  },
  {
   "property": "C90",
   "status": "proved",
   "theorems": [
    "C90_edits_ignore_white_space",
    "C90_selections_ignore_white_space"
   ],
   "note": "For selections the prototype has no early exits and does not begin with a region end, and targets have text nodes only, as in C45; the wrappers guarantee this."
  }
 ]
}