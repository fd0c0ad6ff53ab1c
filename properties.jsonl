{"id": "C01", "title": "Adding edges keeps a state DAG in topological order", "statement": "Start an empty partial DAG and call partial_state_dag_add_edge any number of times. After every call the recorded edge list is such that no edge enters a state that already had an outgoing edge earlier in the list (self-loops excepted, see finding); a call whose destination already has an outgoing edge raises and leaves the DAG unchanged; every other call appends exactly that edge.", "quantifier": "every sequence of add_edge calls over any state type, of any length", "why_tests_cant": "the histories of calls are unbounded; a test covers a handful of call orders", "anchors": ["r_u_sure/decision_diagrams/gated_state_dag.py:partial_state_dag_starting_from", "r_u_sure/decision_diagrams/gated_state_dag.py:partial_state_dag_add_edge", "r_u_sure/decision_diagrams/gated_state_dag.py:partial_state_dag_finish"]}
{"id": "C02", "title": "Pruning keeps exactly the complete finite-cost paths", "statement": "For every topologically ordered DAG, prune_to_reachable returns a DAG with the same initial and final state whose initial-to-final paths are exactly the initial-to-final paths of the input that use only finite-cost edges, in the same order and with the same costs, assignments and info; every edge that survives lies on such a path.", "quantifier": "every DAG with any number of states and edges in topological order", "why_tests_cant": "needs all paths of all DAGs; the number of paths is exponential in the DAG", "anchors": ["r_u_sure/decision_diagrams/gated_state_dag.py:compute_reachable_states", "r_u_sure/decision_diagrams/gated_state_dag.py:prune_to_reachable"]}
{"id": "C03", "title": "Compiled and pure-Python pruning agree", "statement": "For every topologically ordered DAG, the numba version of prune_to_reachable returns the same edge list as the pure Python version.", "quantifier": "every topologically ordered DAG", "why_tests_cant": "the two implementations use different tests (source forward-reachable and dest backward-reachable versus both in the intersection) and agree only by a graph argument", "anchors": ["r_u_sure/decision_diagrams/gated_state_dag.py:prune_to_reachable", "r_u_sure/decision_diagrams/gated_state_dag.py:_prune_to_reachable_overload"]}
{"id": "C04", "title": "Pruning with state rewriting returns an isomorphic DAG", "statement": "prune_unreachable_and_rewrite_states returns the pruned DAG with states renamed by a one-to-one map to 0..n-1, provided no two distinct states of the DAG collide in the scratch table; the result does not depend on what an earlier call left in the scratch table.", "quantifier": "every topologically ordered DAG, every hash function and every scratch table size", "why_tests_cant": "hash collisions depend on the process hash and on unbounded inputs", "anchors": ["r_u_sure/decision_diagrams/gated_state_dag.py:prune_unreachable_and_rewrite_states"]}
{"id": "C05", "title": "Packing a DAG preserves paths, costs and assignments", "statement": "If convert_dag_to_packed succeeds on a pruned DAG then the complete paths of the packed DAG correspond one-to-one with the complete paths of the input: reading the original edges off a packed path gives the input path, the costs are equal, and each variable gets the value the input path assigns to it, or the designated missing value if the path does not mention it.", "quantifier": "every pruned DAG, every choice of sortable keys and values", "why_tests_cant": "path spaces are exponential and variable skipping patterns unbounded", "anchors": ["r_u_sure/decision_diagrams/packed_dags.py:convert_dag_to_packed", "r_u_sure/decision_diagrams/packed_dags.py:PackedStateDAG", "r_u_sure/decision_diagrams/packed_dags.py:PackedStateDAGConversionData"]}
{"id": "C06", "title": "Every packed path assigns every variable exactly once, in order", "statement": "Along every complete path of a packed DAG produced by convert_dag_to_packed, each shared variable is assigned exactly once and the assignments occur in increasing key order.", "quantifier": "every packed DAG produced from any pruned input, every complete path", "why_tests_cant": "all paths of all DAGs", "anchors": ["r_u_sure/decision_diagrams/packed_dags.py:convert_dag_to_packed"]}
{"id": "C07", "title": "Packed layout invariants", "statement": "The edge list of a packed DAG is grouped as documented (before variable 0, assigning variable 0, before variable 1, ...): boundaries are monotone, start at 0 and end at the number of edges, edges in assigning groups carry that variable and other edges carry none, and states are numbered so that each edge goes from a lower- to a higher-numbered state inside the documented state ranges.", "quantifier": "every packed DAG produced from any pruned input", "why_tests_cant": "index arithmetic over unbounded tables", "anchors": ["r_u_sure/decision_diagrams/packed_dags.py:convert_dag_to_packed", "r_u_sure/decision_diagrams/packed_dags.py:PackedStateDAG"]}
{"id": "C08", "title": "Out-of-order assignments are rejected, in-order ones accepted", "statement": "convert_dag_to_packed raises ValueError when some path assigns variables out of key order (or twice), and does not raise for a pruned topologically ordered DAG in which every path assigns keys in strictly increasing order.", "quantifier": "every pruned DAG", "why_tests_cant": "requires reasoning over all paths; the code only tracks a per-state maximum", "anchors": ["r_u_sure/decision_diagrams/packed_dags.py:convert_dag_to_packed"]}
{"id": "C09", "title": "Shortest-path tables stay exact under any interleaving of operations", "statement": "After any sequence of set_penalties, prefix/suffix updates, min-marginal queries and minimal-cost queries on a table, every prefix (suffix) entry that is claimed valid equals the true least penalised cost from the initial state (to the final state), and no query ever reads a stale or NaN entry.", "quantifier": "every packed DAG, every finite sequence of table operations with any penalties", "why_tests_cant": "the valid-range bookkeeping is a stateful cache; bugs show only for particular histories", "anchors": ["r_u_sure/decision_diagrams/packed_dags.py:PenalizedShortestPrefixSuffixTables", "r_u_sure/decision_diagrams/packed_dags.py:update_prefixes_up_to", "r_u_sure/decision_diagrams/packed_dags.py:update_suffixes_up_to", "r_u_sure/decision_diagrams/packed_dags.py:set_penalties", "r_u_sure/decision_diagrams/packed_dags.py:make_fully_valid"]}
{"id": "C10", "title": "Min-marginals are exact", "statement": "compute_min_marginals_for_variable returns, for each value, the least penalised cost over complete paths that assign that value to the variable, and infinity if there is none; compute_all_min_marginals agrees for all variables.", "quantifier": "every packed DAG, penalties, variable and table history", "why_tests_cant": "quantifies over all paths", "anchors": ["r_u_sure/decision_diagrams/packed_dags.py:compute_min_marginals_for_variable", "r_u_sure/decision_diagrams/packed_dags.py:compute_all_min_marginals"]}
{"id": "C11", "title": "Minimal cost is the least path cost, whichever strategy is used", "statement": "compute_minimal_cost returns the least penalised cost over complete paths for each of the AT_START, AT_END and FROM_MIDDLE strategies.", "quantifier": "every packed DAG with at least one variable, every table history", "why_tests_cant": "quantifies over all paths and histories", "anchors": ["r_u_sure/decision_diagrams/packed_dags.py:compute_minimal_cost"]}
{"id": "C12", "title": "The extracted path is a true optimum", "statement": "extract_minimal_cost_path_and_assignments returns a complete path of the DAG whose penalised cost equals the least penalised cost over complete paths, and the assignment vector it returns is the assignment made by that path.", "quantifier": "every packed DAG having a finite complete path, any penalties", "why_tests_cant": "quantifies over all competing paths", "anchors": ["r_u_sure/decision_diagrams/packed_dags.py:extract_minimal_cost_path_and_assignments"]}
{"id": "C13", "title": "Constrained best path obeys its constraints and is optimal", "statement": "constrained_best_path returns a path consistent with every given constraint on a known key, with least cost among such paths, and reports the assignment of that path.", "quantifier": "every packed DAG and every partial constraint map for which some consistent path exists", "why_tests_cant": "all constraint maps and all paths", "anchors": ["r_u_sure/decision_diagrams/packed_dags.py:constrained_best_path"]}
{"id": "C14", "title": "The dual objective never exceeds the cost of any consistent solution", "statement": "At every step of solve_system_with_sweeps the reported objective is at most the total (sum over DAGs) cost of every assignment vector on which all DAGs agree, so the reported dual bound is sound.", "quantifier": "every system of packed DAGs over a shared variable list, every solver history, every assignment", "why_tests_cant": "weak duality quantifies over exponentially many assignments and unbounded runs", "anchors": ["r_u_sure/decision_diagrams/consistent_path_dual_solver.py:min_marginal_average", "r_u_sure/decision_diagrams/consistent_path_dual_solver.py:solve_system_with_sweeps", "r_u_sure/decision_diagrams/consistent_path_dual_solver.py:system_min_marginals"]}
{"id": "C15", "title": "Block-coordinate updates never lower the dual objective", "statement": "Each min_marginal_average update leaves the system's dual objective (sum of per-DAG minimal penalised costs) no smaller than before.", "quantifier": "every system, variable and penalty state with finite minimal cost", "why_tests_cant": "numerical monotonicity over all inputs", "anchors": ["r_u_sure/decision_diagrams/consistent_path_dual_solver.py:min_marginal_average"]}
{"id": "C16", "title": "Penalties are conserved across the DAGs of a system", "statement": "For every variable and value the penalties over all DAGs sum to the extra unary cost of the system; min_marginal_average, constrain_system, break_symmetry_randomly and solve_system_with_sweeps preserve this.", "quantifier": "every system and every sequence of these operations", "why_tests_cant": "a conservation law over unbounded histories", "anchors": ["r_u_sure/decision_diagrams/consistent_path_dual_solver.py:make_system", "r_u_sure/decision_diagrams/consistent_path_dual_solver.py:min_marginal_average", "r_u_sure/decision_diagrams/consistent_path_dual_solver.py:constrain_system", "r_u_sure/decision_diagrams/consistent_path_dual_solver.py:break_symmetry_randomly"]}
{"id": "C17", "title": "Greedy extraction reports the true cost of what it returns", "statement": "If greedy_extract returns a finite cost then that cost is the sum over DAGs of the least cost of paths making exactly the returned assignment (plus extra unary costs); hence it is never below the dual bound and the caller's system is unchanged.", "quantifier": "every system and both sweep directions", "why_tests_cant": "all systems, all assignments", "anchors": ["r_u_sure/decision_diagrams/consistent_path_dual_solver.py:greedy_extract", "r_u_sure/decision_diagrams/consistent_path_dual_solver.py:clone_system"]}
{"id": "C18", "title": "Constraining a system penalises exactly the forbidden values", "statement": "constrain_system with penalty p adds p to the total cost of every assignment once for each constrained key whose value differs from the required one, changes nothing else, and ignores nothing silently: unknown keys raise.", "quantifier": "every system, constraint map and penalty", "why_tests_cant": "all assignments of all systems", "anchors": ["r_u_sure/decision_diagrams/consistent_path_dual_solver.py:constrain_system"]}
{"id": "C19", "title": "Assignment vectors decode to the keys and values of the system", "statement": "assignments_from_assignment_vector maps each variable key of the system to exactly the value indexed by the vector, and constraining a path by that map reproduces the vector.", "quantifier": "every system and every vector of value indices", "why_tests_cant": "all systems and vectors", "anchors": ["r_u_sure/decision_diagrams/consistent_path_dual_solver.py:assignments_from_assignment_vector", "r_u_sure/decision_diagrams/consistent_path_dual_solver.py:make_system"]}
{"id": "C20", "title": "Sweep solver runs each variable and stops", "statement": "solve_system_with_sweeps alternates forward and backward sweeps over the variables, always terminates for a positive tolerance when some assignment has finite cost, and stops after the first round trip in which no single step improves the objective by more than the tolerance; once the soft timeout has expired it finishes the sweep and stops.", "quantifier": "every system and every clock schedule", "why_tests_cant": "schedules of the wall clock cannot be enumerated", "anchors": ["r_u_sure/decision_diagrams/consistent_path_dual_solver.py:solve_system_with_sweeps"]}
{"id": "C21", "title": "Transforms never change the suggestion's text", "statement": "flatten_groups, flatten_singleton_groups, insert_early_exit, insert_region_options_around_subsequences, insert_region_options_around_single_nodes and strip_decision_nodes all leave render_text_contents unchanged.", "quantifier": "every sequence of nodes of any depth, every node filter", "why_tests_cant": "trees of unbounded depth and arbitrary filters", "anchors": ["r_u_sure/tree_structure/transforms.py:flatten_groups", "r_u_sure/tree_structure/transforms.py:insert_early_exit", "r_u_sure/tree_structure/transforms.py:insert_region_options_around_subsequences", "r_u_sure/tree_structure/transforms.py:insert_region_options_around_single_nodes", "r_u_sure/tree_structure/transforms.py:strip_decision_nodes", "r_u_sure/tree_structure/transforms.py:flatten_singleton_groups"]}
{"id": "C22", "title": "Stripping decision nodes undoes their insertion", "statement": "For every sequence without decision nodes, strip_decision_nodes after any composition of insert_early_exit and insert_region_options_around_subsequences returns the original sequence, and after insert_region_options_around_single_nodes the original up to the region_scope groups; strip is idempotent and its output has no decision nodes.", "quantifier": "every tree and every composition of insertion transforms", "why_tests_cant": "unbounded compositions and trees", "anchors": ["r_u_sure/tree_structure/transforms.py:strip_decision_nodes", "r_u_sure/tree_structure/transforms.py:insert_early_exit", "r_u_sure/tree_structure/transforms.py:insert_region_options_around_subsequences", "r_u_sure/tree_structure/transforms.py:insert_region_options_around_single_nodes"]}
{"id": "C23", "title": "Flattening keeps the leaves", "statement": "flatten_groups returns a group-free sequence equal to the leaves of the input in order; flatten_singleton_groups removes exactly the groups whose only child is a token or a group and records enough in the match types to distinguish what was removed.", "quantifier": "every tree", "why_tests_cant": "unbounded trees", "anchors": ["r_u_sure/tree_structure/transforms.py:flatten_groups", "r_u_sure/tree_structure/transforms.py:flatten_singleton_groups"]}
{"id": "C24", "title": "Inserted regions sit around eligible siblings", "statement": "insert_region_options_around_subsequences puts region starts before and region ends after exactly the nodes accepted by the filter (and empty-region pairs where allowed), at every nesting level, so that every region that can be opened at some level can be closed at that level.", "quantifier": "every tree, filter and option setting", "why_tests_cant": "unbounded trees and filters", "anchors": ["r_u_sure/tree_structure/transforms.py:insert_region_options_around_subsequences", "r_u_sure/tree_structure/transforms.py:insert_region_options_around_single_nodes"]}
{"id": "C25", "title": "Truncating a prefix drops exactly that many characters", "statement": "truncate_prefix_at_offset(seq, k) renders to the text of seq without its first k characters when 0 <= k <= len(text), and keeps the ancestors of every surviving character.", "quantifier": "every tree and every offset in range", "why_tests_cant": "unbounded trees; off-by-one offsets at every boundary", "anchors": ["r_u_sure/tree_structure/transforms.py:truncate_prefix_at_offset"]}
{"id": "C26", "title": "Packing node trees is lossless", "statement": "unpack(pack(seq)) returns seq, and rendering a packed tree gives the same text as rendering seq.", "quantifier": "every tree", "why_tests_cant": "unbounded trees", "anchors": ["r_u_sure/tree_structure/packed_sequence_nodes.py:pack", "r_u_sure/tree_structure/packed_sequence_nodes.py:unpack", "r_u_sure/tree_structure/packed_sequence_nodes.py:render_text_contents_of_node"]}
{"id": "C27", "title": "Preorder indices, parents and paths agree", "statement": "In a packed tree the i-th entry of the preorder traversal has preorder index i; node_id_from_node_path of path_from_preorder_index(i) returns that node; parents precede children; subtrees are contiguous.", "quantifier": "every tree and every node", "why_tests_cant": "unbounded trees", "anchors": ["r_u_sure/tree_structure/packed_sequence_nodes.py:pack", "r_u_sure/tree_structure/packed_sequence_nodes.py:path_from_preorder_index", "r_u_sure/tree_structure/packed_sequence_nodes.py:node_id_from_node_path", "r_u_sure/tree_structure/packed_sequence_nodes.py:subsequence_from_node_path"]}
{"id": "C28", "title": "In-order traversal is balanced and complete", "statement": "in_order_traversal visits every leaf once (decorations dropped on request) and every group twice, once before and once after its children, in text order; group visits are properly nested.", "quantifier": "every packed tree", "why_tests_cant": "unbounded trees", "anchors": ["r_u_sure/tree_structure/packed_sequence_nodes.py:in_order_traversal"]}
{"id": "C29", "title": "Walks report true paths in increasing order", "statement": "walk_with_paths yields each leaf with the path that leads to it, in strictly increasing path order, and groups before/after their children as requested.", "quantifier": "every tree, every flag combination", "why_tests_cant": "unbounded trees", "anchors": ["r_u_sure/tree_structure/sequence_node_helpers.py:walk_with_paths", "r_u_sure/tree_structure/sequence_nodes.py:NestedNodePath"]}
{"id": "C30", "title": "Reported depth is the true nesting depth", "statement": "compute_depth is one plus the largest number of groups around any position, and pack reports the same depth.", "quantifier": "every tree", "why_tests_cant": "unbounded trees; empty groups are an easy-to-miss case", "anchors": ["r_u_sure/tree_structure/sequence_node_helpers.py:compute_depth", "r_u_sure/tree_structure/packed_sequence_nodes.py:pack"]}
{"id": "C31", "title": "Probability spans follow the text", "statement": "A span helper advanced by any sequence of lengths returns consecutive substrings of the model text, the log probability reported for a span is the sum over the model tokens whose unread part it touches, and nothing is skipped or read twice.", "quantifier": "every model tokenisation and every sequence of advances", "why_tests_cant": "two independent tokenisations of one text, unbounded", "anchors": ["r_u_sure/tree_structure/token_prob_align.py:SpanProbHelper"]}
{"id": "C32", "title": "Log-prob alignment covers each text token once", "statement": "align_token_log_probs succeeds exactly when the model tokens spell the packed tree's text (or start with it, unless told to consume everything), gives every text token node exactly one entry, the sum of the log probs of the model tokens it touches; flattening lists the text in order.", "quantifier": "every packed tree and every model tokenisation", "why_tests_cant": "two independent tokenisations", "anchors": ["r_u_sure/tree_structure/token_prob_align.py:align_token_log_probs", "r_u_sure/tree_structure/token_prob_align.py:flatten_token_log_probs_from_parsed"]}
{"id": "C33", "title": "Subtokenisation is lossless", "statement": "code_to_tokens_simple_lossless splits any string into non-empty pieces whose concatenation is the string, and splits exactly at the documented class changes.", "quantifier": "every string", "why_tests_cant": "strings of unbounded length", "anchors": ["r_u_sure/parsing/subtokenizer.py:code_to_tokens_simple_lossless", "r_u_sure/parsing/sequence_from_pseudo_parse.py:subtokenize_token"]}
{"id": "C34", "title": "Token codec is faithful", "statement": "Token kinds registered in a regex codec get distinct codes, and decoding an encoded token sequence gives it back.", "quantifier": "every sequence of registrations and every token sequence", "why_tests_cant": "registration histories are unbounded", "anchors": ["r_u_sure/parsing/pseudo_parser/stack_parser.py:RegexCodec"]}
{"id": "C35", "title": "Bracket error correction always yields a balanced sequence", "statement": "For every token sequence, after adding the tokens computed by error_correcting_prefix_and_suffix the brackets match, and nothing is added to an already balanced sequence.", "quantifier": "every token sequence and set of bracket pairs", "why_tests_cant": "sequences of unbounded length and nesting", "anchors": ["r_u_sure/parsing/pseudo_parser/stack_parser.py:error_correcting_prefix_and_suffix", "r_u_sure/parsing/pseudo_parser/stack_parser.py:stack_based_bracket_match"]}
{"id": "C36", "title": "The pseudo-parse covers the token sequence exactly", "statement": "The tree returned by the bracket matcher and by split_parse has node ranges that partition their parent's range; the leaves read left to right are the tokens, each exactly once.", "quantifier": "every balanced (or error-corrected) token sequence, every set of split tokens", "why_tests_cant": "unbounded sequences and nesting", "anchors": ["r_u_sure/parsing/pseudo_parser/stack_parser.py:stack_based_bracket_match", "r_u_sure/parsing/pseudo_parser/stack_parser.py:split_parse", "r_u_sure/parsing/pseudo_parser/stack_parser.py:valid_parse_ranges"]}
{"id": "C37", "title": "Indentation desugaring is balanced and reversible", "statement": "python_indent_dedent_desugar inserts only indent and dedent markers, as many of one as of the other, never a dedent before its indent, and removing them gives the input tokens back.", "quantifier": "every token sequence", "why_tests_cant": "unbounded programs", "anchors": ["r_u_sure/parsing/pseudo_parser/stack_parser.py:python_indent_dedent_desugar"]}
{"id": "C38", "title": "From pseudo-parse to node sequence the text is preserved", "statement": "pseudo_parse_node_to_nested_sequence_node of any valid parse tree renders to the concatenation of the tokens in the node's range; it raises exactly when some non-decoration, non-subtokenised node's children do not tile it.", "quantifier": "every parse tree and choice of decoration and subtokenise types", "why_tests_cant": "unbounded trees", "anchors": ["r_u_sure/parsing/sequence_from_pseudo_parse.py:pseudo_parse_node_to_nested_sequence_node"]}
{"id": "C39", "title": "Suggested truncation points lie inside the completion", "statement": "infer_match_pair_truncation_index, infer_split_truncation_index and the fallback combination return an index strictly after the cursor and at most the end of the text.", "quantifier": "every program text tokenisation and cursor", "why_tests_cant": "unbounded inputs", "anchors": ["r_u_sure/parsing/pseudo_parser/utilities.py:infer_match_pair_truncation_index", "r_u_sure/parsing/pseudo_parser/utilities.py:infer_split_truncation_index", "r_u_sure/parsing/pseudo_parser/utilities.py:infer_truncation_with_fallbacks"]}
{"id": "C40", "title": "Indent width inference divides all indents", "statement": "infer_python_spaces_per_indent returns the largest candidate width that divides the widths it has observed, as documented.", "quantifier": "every text", "why_tests_cant": "unbounded texts", "anchors": ["r_u_sure/parsing/pseudo_parser/utilities.py:infer_python_spaces_per_indent"]}
{"id": "C41", "title": "The constraint DAG accepts exactly the well-formed region choices", "statement": "A complete path of the constraint DAG exists for a set of decisions iff the decisions describe non-overlapping regions, each opened and closed among the children of one group, with tokens and groups marked as in a region exactly when they lie in one, and decisions that cannot apply marked not applicable; the path cost is zero.", "quantifier": "every prototype tree and every assignment of decisions", "why_tests_cant": "exponentially many decision vectors over unbounded trees", "anchors": ["r_u_sure/edit_distance_utility/constraint_dags.py:make_constraint_dag_builder", "r_u_sure/edit_distance_utility/region_decisions.py:DecisionKey"]}
{"id": "C42", "title": "Utility DAG builders never violate edge order", "statement": "Building the constraint, edit and part-selection DAGs for any packed prototype and target never triggers the edge-order error.", "quantifier": "every prototype and target tree", "why_tests_cant": "nested recursion over unbounded pairs of trees", "anchors": ["r_u_sure/edit_distance_utility/constraint_dags.py:make_constraint_dag_builder", "r_u_sure/edit_distance_utility/edit_dags.py:make_edit_dag_builder", "r_u_sure/edit_distance_utility/part_selection_dags.py:make_selection_dag_builder", "r_u_sure/decision_diagrams/gated_state_dag.py:partial_state_dag_add_edge"]}
{"id": "C43", "title": "Every edit-DAG path is an edit script for the two texts", "statement": "Along every complete path without early exit, the kept and deleted tokens in order are the prototype's tokens and the kept and inserted tokens are the target's tokens; with early exit they are prefixes. Kept tokens have equal text and type.", "quantifier": "every prototype, target and path", "why_tests_cant": "exponentially many paths over unbounded trees", "anchors": ["r_u_sure/edit_distance_utility/edit_dags.py:make_edit_dag_builder"]}
{"id": "C44", "title": "Every structural edit script is available as an edit-DAG path with the documented cost", "statement": "For every way to match the trees level by level there is a path, and its cost is the documented sum of per-character match utilities, delete and insert costs, region costs and start-editing costs under the chosen confidence levels.", "quantifier": "every prototype, target, parameters and structural alignment", "why_tests_cant": "unbounded alignments", "anchors": ["r_u_sure/edit_distance_utility/edit_dags.py:make_edit_dag_builder", "r_u_sure/edit_distance_utility/edit_dags.py:token_node_utility_from_parameters"]}
{"id": "C45", "title": "Part selection credits only parts that occur contiguously in the target", "statement": "Along every complete path of the selection DAG, each matched region spells a contiguous run of the target's in-order traversal, matched runs occur in order without overlap, and the cost is the sum of delete costs of unmatched selected tokens minus match utilities of matched ones.", "quantifier": "every prototype, target and path", "why_tests_cant": "unbounded trees and paths", "anchors": ["r_u_sure/edit_distance_utility/part_selection_dags.py:make_selection_dag_builder"]}
{"id": "C46", "title": "Declining to end a region is always possible in the selection DAG", "statement": "Whenever a selected but unmatched region reaches a region-end node, the DAG offers both ending and continuing.", "quantifier": "every prototype and target", "why_tests_cant": "depends on what was visited previously in the loop", "anchors": ["r_u_sure/edit_distance_utility/part_selection_dags.py:make_selection_dag_builder"]}
{"id": "C47", "title": "Region extraction shows exactly the prototype's text", "statement": "For every assignment allowed by the constraint DAG, extract_sequence_with_regions does not fail and the concatenation of what it yields is the prototype's text (or the prefix before the chosen early exit), flagged in-region exactly between the chosen starts and ends.", "quantifier": "every prototype tree and every allowed assignment", "why_tests_cant": "unbounded trees, exponentially many assignments", "anchors": ["r_u_sure/edit_distance_utility/region_decisions.py:extract_sequence_with_regions"]}
{"id": "C48", "title": "Rendered HTML is balanced and escaped", "statement": "render_regions_to_html and extract_edit_sequence_html yield properly nested span tags whatever the text and assignment; un-escaping and removing tags gives back the shown text, and the tags around a piece of text say how it was classified.", "quantifier": "every prototype, text and assignment", "why_tests_cant": "arbitrary strings", "anchors": ["r_u_sure/edit_distance_utility/region_decisions.py:render_regions_to_html", "r_u_sure/edit_distance_utility/edit_dags.py:extract_edit_sequence_html"]}
{"id": "C49", "title": "Derived costs break even exactly at the requested precision", "statement": "With derive_uncertainty_region_costs, for every token length the expected utility of a low-confidence region equals that of a high-confidence one when the chance of being right equals the effective precision, is larger below it and smaller above it.", "quantifier": "every precision, sensitivity, start cost and token length", "why_tests_cant": "continuous parameters", "anchors": ["r_u_sure/wrappers/uncertainty_regions_wrapper.py:derive_uncertainty_region_costs", "r_u_sure/edit_distance_utility/edit_dags.py:token_node_utility_from_parameters"]}
{"id": "C50", "title": "Prefix baselines choose at most one exit and give consistent constraints", "statement": "Every baseline of the prefix builder marks at most one early exit as taken, all earlier ones as not taken and all later ones as not applicable, and chooses it by its documented rule; when no regions are offered these constraints fit exactly one allowed choice, and the suggestion shown is the text before that exit.", "quantifier": "every prototype and every log-probability alignment", "why_tests_cant": "unbounded prototypes", "anchors": ["r_u_sure/wrappers/prefix_truncation_wrapper.py:PrefixByEditDistanceBaselineBuilder"]}
{"id": "C51", "title": "Call extraction yields well-formed API-call groups", "statement": "The call-sequence wrapper yields exactly the call-like expressions of the text from the last line break before the prediction location on, in order and without overlap, each as one group that spells the call, starts with a region start and ends with the call suffix; if decorations before a group are white space, the three baselines never fail, give allowed region choices and highlight whole calls, call heads, or call heads with a novel token; every allowed choice can be selected for every target.", "quantifier": "every parsed context and suggestion", "why_tests_cant": "unbounded trees", "anchors": ["r_u_sure/wrappers/call_sequence_wrapper.py:ApiCallSequenceWrapper"]}
{"id": "C52", "title": "Edit summaries account for the whole cost", "statement": "The grouped edit sequence, the summary metrics of an edit path and the groups of a selection path account for every unit of the path's cost exactly once and show every token once.", "quantifier": "every path of every edit DAG", "why_tests_cant": "all paths", "anchors": ["r_u_sure/edit_distance_utility/edit_dags.py:_group_edit_sequence", "r_u_sure/edit_distance_utility/edit_dags.py:extract_edit_summary_metrics", "r_u_sure/edit_distance_utility/edit_dags.py:extract_edit_sequence_text", "r_u_sure/edit_distance_utility/part_selection_dags.py:extract_match_groups"]}
{"id": "C53", "title": "Scaling a packed DAG scales every path cost", "statement": "scale_packed_dag_costs multiplies the cost of every path by the factor and changes nothing else, so optimal assignments are preserved for positive factors.", "quantifier": "every packed DAG and factor", "why_tests_cant": "all paths", "anchors": ["r_u_sure/decision_diagrams/packed_dags.py:scale_packed_dag_costs"]}
{"id": "C54", "title": "Committing variables never removes all solutions", "statement": "partially_commit only forbids values (infinite unary cost), only when every solution using them is worse than the best known lower bound by more than the gap, never forbids every value of a variable, keeps the penalties conserved and keeps every DAG's minimum finite; its status says whether anything was committed.", "quantifier": "every system and commitment request", "why_tests_cant": "all systems", "anchors": ["r_u_sure/decision_diagrams/consistent_path_dual_solver.py:partially_commit"]}
{"id": "C55", "title": "End to end: a combined suggestion is the chosen sample, annotated or truncated", "statement": "combine always returns. The parts of the suggestion it returns concatenate to the chosen sample, or to a prefix of it, the latter only for a wrapper with early exits whose decisions take one; the parts carry the low-confidence flag exactly where the decisions open a region, neighbouring parts have different flags, and a wrapper without regions flags nothing. With regions there is always a suggestion when there is any text. The call-sequence wrapper's suggestion consists of every call found in the sample, in order, one per line, and there is one exactly when there is a call.", "quantifier": "every context, sample list, prototype index, cost parameters and clock", "why_tests_cant": "composition of all stages on arbitrary text", "anchors": ["r_u_sure/wrappers/edit_distance_wrapper_base.py:EditDistanceWrapperBase", "r_u_sure/wrappers/call_sequence_wrapper.py:ApiCallSequenceWrapper", "r_u_sure/wrappers/demo_runner.py:DemoRunner.combine", "r_u_sure/wrappers/demo_runner.py:DemoRunner.get_extracted_parts", "r_u_sure/edit_distance_utility/region_decisions.py:extract_sequence_with_regions"]}
{"id": "C56", "title": "Early exits are offered after every token and group and nowhere else", "statement": "After insert_early_exit every token and every group is directly followed by an early-exit node, every early-exit node directly follows a token or a group (or is the one requested at the start), and the same holds inside groups exactly when requested.", "quantifier": "every sequence without early exits, both flags", "why_tests_cant": "trees of unbounded depth", "anchors": ["r_u_sure/tree_structure/transforms.py:insert_early_exit"]}
{"id": "C57", "title": "Every path lookup in a packed tree is right or refused", "statement": "For every path whatsoever, node_id_from_node_path and subsequence_from_node_path return the node or the children the path leads to in the original tree, and raise an error when there is none; no path through a leaf succeeds.", "quantifier": "every tree and every path, valid or not", "why_tests_cant": "unbounded trees and paths", "anchors": ["r_u_sure/tree_structure/packed_sequence_nodes.py:node_id_from_node_path", "r_u_sure/tree_structure/packed_sequence_nodes.py:subsequence_from_node_path"]}
{"id": "C58", "title": "What the builders build can always be pruned and packed", "statement": "For every prototype and target, pruning the constraint, edit or selection DAG and converting it to packed form never raises: every path makes its decisions once, in the order of the keys.", "quantifier": "every prototype and target tree", "why_tests_cant": "exponentially many paths over unbounded trees", "anchors": ["r_u_sure/edit_distance_utility/constraint_dags.py:make_specialized_dag_packer", "r_u_sure/edit_distance_utility/edit_dags.py:make_specialized_dag_packer", "r_u_sure/edit_distance_utility/part_selection_dags.py:make_specialized_dag_packer", "r_u_sure/decision_diagrams/packed_dags.py:convert_dag_to_packed"]}
{"id": "C59", "title": "Regions and targets never conflict", "statement": "Every choice of regions and early exit that the constraint DAG allows for a prototype is also the choice of some finite-cost edit path for every target, whatever the target: the combined problem over all targets always has a solution.", "quantifier": "every prototype, every list of targets without region nodes, every allowed choice", "why_tests_cant": "unbounded trees, unboundedly many targets", "anchors": ["r_u_sure/edit_distance_utility/constraint_dags.py:make_constraint_dag_builder", "r_u_sure/edit_distance_utility/edit_dags.py:make_edit_dag_builder"]}
{"id": "C60", "title": "The utility and bound reported by combine mean what they say", "statement": "The reported solution utility is minus the average, over all samples, of the least cost at which the suggestion with its chosen regions and exit can be edited into (or its calls selected from) the sample; the reported dual bound is at least that of every other allowed choice of regions and exit, so the gap between the two bounds how much any other annotation could gain.", "quantifier": "every context, sample list, prototype index, cost parameters and clock", "why_tests_cant": "minimum over unboundedly many edit paths and choices of regions", "anchors": ["r_u_sure/wrappers/demo_runner.py:DemoRunner.combine", "r_u_sure/wrappers/edit_distance_wrapper_base.py:EditDistanceWrapperBase.build_system", "r_u_sure/decision_diagrams/consistent_path_dual_solver.py:solve_system_with_sweeps", "r_u_sure/decision_diagrams/consistent_path_dual_solver.py:greedy_extract"]}
{"id": "C61", "title": "The cost statistics reported with a solution are right", "statement": "The per-sample costs reported with a solution are the least edit costs of the chosen decisions, in the order of the samples and not scaled by the weights; the sorted list is a sorted permutation of them; average and variance are theirs, the average being minus the solution utility; the rank of a true cost is the number of samples that cost less.", "quantifier": "every context, sample list, parameters; every true cost", "why_tests_cant": "minimum over unboundedly many edit paths", "anchors": ["r_u_sure/wrappers/wrapper_base.py:compute_sample_system_info", "r_u_sure/wrappers/edit_distance_wrapper_base.py:EditDistanceWrapperBase.solution_info"]}
{"id": "C62", "title": "Region baselines flag what their rules single out, at the best price the solver can certify", "statement": "Asking the uncertainty-regions wrapper for baseline assignments returns, whatever the wall clock does, one entry per configured baseline and no others. The token-probability baselines single out exactly the non-empty tokens whose own (or cumulative) probability is below the threshold, the example-fraction baseline exactly the non-empty tokens ending after that fraction of the characters, the depth baseline exactly the tokens at least the given number of levels above or below the first token; cutoffs below one raise ValueError. Each assignment answers every question of the prototype once with decisions that can occur; its cost is the cheapest edit under those decisions plus 1e6 per singled-out token left outside every region, the solver's objectives never exceed the cost of any alternative, and when they meet, no alternative is better and no token is left out that sufficiently cheap decisions would flag.", "quantifier": "every prototype tree, suggestion, aligned model tokens, thresholds, fractions and cutoffs; every clock", "why_tests_cant": "exponentially many assignments; trees of any shape and size", "anchors": ["r_u_sure/wrappers/uncertainty_regions_wrapper.py:build_baseline_assignments", "r_u_sure/wrappers/uncertainty_regions_wrapper.py:UncertaintyRegionsBaselineBuilder", "r_u_sure/wrappers/uncertainty_regions_wrapper.py:_assignment_from_low_confidence_nodes"]}
{"id": "C63", "title": "Lexing loses nothing and is the same everywhere", "statement": "In every supported language and for every text, the tokens spell the text, no token is empty, and two tokens with the same text have the same type wherever they occur. The simple language's tokens are exactly the longest numbers, names and runs of blanks, and otherwise single characters. (Finding: in C++, Java and JavaScript no token is ever a string.)", "quantifier": "every language, every text, every Unicode digit table that agrees with ASCII", "why_tests_cant": "regular expressions with back references and lookbehind over unbounded text", "anchors": ["r_u_sure/parsing/pseudo_parser/stack_parser.py:RegexCodec.encode", "r_u_sure/parsing/pseudo_parser/stack_parser.py:RegexCodec.preset"]}
{"id": "C64", "title": "Every text can be parsed in every language, and the result spells it", "statement": "Parsing never raises, in any language, for any text (in Python: any text but the empty one, which raises IndexError), however unbalanced its brackets and indentation. The raw tokens spell the text without the corrections; the tree tiles the tokens, each in one leaf; brackets in the tree are matching brackets or the two ends of an indented block, whose markers are empty. The helper's node sequence, nested or flattened, spells the text and has no decisions. The inferred indentation width is between 1 and 4.", "quantifier": "every language, text, indentation width; flattened or not", "why_tests_cant": "arbitrary, malformed source text", "anchors": ["r_u_sure/parsing/pseudo_parser/stack_parser.py:parse_and_maybe_preprocess", "r_u_sure/parsing/pseudo_parser/stack_parser.py:PseudoParser.preset", "r_u_sure/wrappers/parser_tools.py:ParserHelper.parse_to_nodes", "r_u_sure/parsing/pseudo_parser/utilities.py:infer_python_spaces_per_indent"]}
{"id": "C65", "title": "Combining raw text needs no assumption about the parser", "statement": "For raw samples in any supported language (in Python, unless context and some sample are both empty) combine returns, and its suggestion is the chosen sample, annotated or truncated; with the call-sequence wrapper it is the calls of the sample in order.", "quantifier": "every language, context, sample list, prototype index, cost parameters and clock", "why_tests_cant": "composition of lexer, parser, builders and solver on arbitrary text", "anchors": ["r_u_sure/wrappers/demo_runner.py:DemoRunner.combine", "r_u_sure/wrappers/parser_tools.py:ParserHelper", "r_u_sure/parsing/pseudo_parser/stack_parser.py:parse_and_maybe_preprocess"]}
{"id": "C66", "title": "Baselines run on raw model output return one suggestion per configured baseline", "statement": "Running the baselines on a context and the tokens a model generated returns one result for each configured baseline and nothing else (for the region baselines, unless a cutoff is below one, which raises ValueError). Truncation baselines show a prefix of the generated text: probability thresholds stop at the first token that is too unlikely, the average baseline at the best average, the length baselines after that many characters or lines. Region baselines always show the whole generated text, with the tokens their rule singles out flagged as far as the solver can. Call baselines show every call of the generated code on its own line.", "quantifier": "every language, context, list of generated tokens with log probabilities, configuration; every clock", "why_tests_cant": "arbitrary source text, unboundedly many tokens, optimizer inside", "anchors": ["r_u_sure/wrappers/demo_runner.py:DemoRunner.build_baselines", "r_u_sure/wrappers/prefix_truncation_wrapper.py:PrefixByEditDistanceWrapper.build_baseline_assignments", "r_u_sure/wrappers/uncertainty_regions_wrapper.py:build_baseline_assignments", "r_u_sure/wrappers/call_sequence_wrapper.py:build_baseline_assignments"]}
{"id": "C67", "title": "The displays show what the result says", "statement": "For every combined result: the suggestion page shows the context and then the suggestion character by character, with the flagged text and only it marked as a region; the edits page shows, for every sample in order, a heading with its number and an edit of the suggestion into the sample that follows the decisions made at the least, reported cost, each piece marked as what it is, the kept and deleted pieces spelling the suggestion (up to a decided exit); the calls page lists for every sample which suggested tokens are matched by it, in its order, and which are wrong; the utilities listed are minus the least costs. The token page shows the given tokens, or the parsed tokens with the sum of the values of the model tokens they touch, and spells the generated text. Nothing that is in the texts can break the markup. Without a result nothing is shown.", "quantifier": "every context, sample list, parameters and clock; every list of model tokens", "why_tests_cant": "arbitrary text escaped into markup; minimum over unboundedly many edit paths", "anchors": ["r_u_sure/wrappers/demo_runner.py:DemoRunner.show_suggestion", "r_u_sure/wrappers/demo_runner.py:DemoRunner.show_edits", "r_u_sure/wrappers/demo_runner.py:DemoRunner.show_utilities", "r_u_sure/wrappers/demo_runner.py:DemoRunner.show_token_probs", "r_u_sure/wrappers/edit_distance_wrapper_base.py:EditDistanceWrapperBase.render_pairwise_matching_html", "r_u_sure/wrappers/call_sequence_wrapper.py:render_pairwise_matching_html", "r_u_sure/tree_structure/token_prob_align.py:render_tokens_and_log_probs_to_html"]}
{"id": "C68", "title": "Evaluating a suggestion on the true continuation reports its true cost and an exact account of it", "statement": "Evaluating a combined result on any continuation succeeds. It reports the suggestion's parts, the least cost at which the suggestion with its decisions can be edited into (or its calls selected from) the continuation, and the number of samples that cost less. Edit metrics: the costs add up to the total, the characters kept, deleted and skipped add up to the suggestion and those kept, inserted and skipped to the continuation (up to a decided exit). Call counters: the suggested tokens of each type that the continuation matches or lacks. (Finding: empty argument lists are paid for but not counted.)", "quantifier": "every context, samples, true continuation, parameters and clock", "why_tests_cant": "minimum over unboundedly many edit paths on arbitrary text", "anchors": ["r_u_sure/wrappers/edit_distance_wrapper_base.py:EditDistanceWrapperBase.solution_info", "r_u_sure/wrappers/call_sequence_wrapper.py:solution_info", "r_u_sure/wrappers/wrapper_base.py:compute_sample_system_info", "r_u_sure/edit_distance_utility/edit_dags.py:extract_edit_summary_metrics"]}
{"id": "C69", "title": "The docstrings found in Python source are those of its functions, each found once", "statement": "Searching any Python text that is not empty for function docstrings succeeds. The positions returned are exactly those that follow three quotation marks which begin a sibling of a function signature in the parse tree, one level of indentation deeper; none is repeated. In the text, each position stands right after blanks and three quotation marks at the start of a line, and that line comes right after a signature beginning with def and one level fewer of blanks; it is a cursor the docstring truncation accepts, and the docstring it delimits ends with the first such marks after it. (Findings: positions are not always in the order of the text; the empty text raises IndexError.)", "quantifier": "every text, every character classification that agrees with ASCII", "why_tests_cant": "every text: nesting, brackets and quotes combine without bound", "anchors": ["r_u_sure/parsing/pseudo_parser/utilities.py:find_python_function_docstrings", "r_u_sure/parsing/pseudo_parser/utilities.py:infer_truncation_pydocstring", "r_u_sure/parsing/pseudo_parser/utilities.py:infer_python_spaces_per_indent"]}
{"id": "C70", "title": "Drawing a DAG draws every state and edge once, as annotated, and marks what is in use", "statement": "Rendering a DAG whose edges are in order makes, after the annotator's set-up, one call for every extra annotation, one label for every state that has an edge, and one group for every edge, in the order of the edges, each with the text, place and tags its annotation gives. A state is tagged reachable exactly when it is on a complete path of finite cost, an edge when both its ends are; with a non-empty list of emphasised edges, exactly the edges equal to one of them (up to their info) are tagged as emphasised and the others as not. The line of an edge runs along its axis from the one box to the other with two bends; with alignments between 0 and 1 it starts and ends on the boxes and does not run back. Rendering succeeds exactly when the annotator does on every state and edge. (Findings: an edge of infinite cost between states in use is tagged reachable; a DAG without edges shows no state.)", "quantifier": "every DAG, annotator, list of emphasised edges and kind of renderer", "why_tests_cant": "all DAGs and all annotators; reachability ranges over unboundedly many paths", "anchors": ["r_u_sure/rendering/dag_annotator.py:render_dag", "r_u_sure/rendering/rendering.py:BoundingBox", "r_u_sure/rendering/dag_annotator.py:StateDAGAnnotator"]}
{"id": "C71", "title": "The SVG shows exactly what was drawn, inside its view box", "statement": "Whatever sequence of labels, containers, lines, dots and groups is drawn on an SVG renderer, the markup returned is well formed and reads back as exactly those elements in that order: each line of each label character by character in its place, each shape with its classes and coordinates, everything inside its group, hover texts exactly if they were asked for. Nothing in the texts can break the markup. The view box is the smallest box around everything drawn, widened by the padding. So every DAG whose annotator uses plain tags can be drawn to SVG. (Findings: labels above a point are put below it; labels of several lines beside a point are not centred on it; tags are not escaped.)", "quantifier": "every list of drawing calls, every printing of numbers, every padding; every DAG and annotator with plain tags", "why_tests_cant": "arbitrary texts and arbitrarily nested groups", "anchors": ["r_u_sure/rendering/svg_renderer.py:SVGRenderer", "r_u_sure/rendering/dag_annotator.py:render_dag"]}
{"id": "C72", "title": "The simple annotator places every edge sensibly and never repeats an offset", "statement": "The simple annotator annotates an edge exactly when both states have a box and its colour is a known one. It draws the edge horizontally exactly when the destination begins to the right of the source's right side. The ends of the edge are on the middle four fifths of the sides of the boxes, its elbow and its text are on the way, so the line touches both boxes, its dot lies on it and it does not run back. The spreading function used for the offsets keeps to its bounds and gives different offsets to every two of any 161803 consecutive numbers. The SVG of every such DAG is well formed. (Finding: the function called irrational is rational and repeats with that period.)", "quantifier": "every DAG, every assignment of boxes to states, every sigmoid with values in [0,1], all integers", "why_tests_cant": "all integers and all box assignments; arithmetic over the rationals", "anchors": ["r_u_sure/rendering/simple_dag_annotator.py:SimpleDAGAnnotator", "r_u_sure/rendering/rendering.py:to_bounded_irrational"]}
{"id": "C73", "title": "The pictures of the three DAGs are readable: no boxes touch and every edge runs forward", "statement": "For every prototype (and target), the annotator of the constraint, edit or selection DAG gives every state of the DAG a box of the set size with the state's name in it. The boxes of two different states are separated by the set gap horizontally or the set separation vertically. Every edge is drawn from its source's box to its destination's box, running to the right or downwards and never back, starting and ending on the sides of the boxes, with the cost and the decision it stands for as its text. So every such DAG can be drawn to SVG, and the SVG shows all of it.", "quantifier": "every prototype and target, every choice of positive sizes whose vertical gap is at least the separation, every list of emphasised edges", "why_tests_cant": "arbitrarily nested prototypes and targets give unboundedly many boxes", "anchors": ["r_u_sure/edit_distance_utility/constraint_dags.py:ConstraintDagGraphAnnotator", "r_u_sure/edit_distance_utility/edit_dags.py:EditDagGraphAnnotator", "r_u_sure/edit_distance_utility/part_selection_dags.py:PartSelectionGraphAnnotator", "r_u_sure/rendering/dag_annotator.py:render_dag"]}
{"id": "C74", "title": "The pictures are labelled with the prototype and the target, each piece beside its states", "statement": "In the pictures of the constraint and edit DAGs every leaf of the prototype is written once, in reading order, above all the states and exactly between the columns of the positions before and after it; in that of the edit DAG every leaf of the target is written to the left of all the states and between the lines of the positions before and after it. The picture of the selection DAG does the same for every visit (tokens, entering and leaving a group). The regions of the edit DAG are exactly the pairs of sequences that can be aligned with each other, and each region encloses the boxes of all states of its pair.", "quantifier": "every prototype and target, every choice of positive sizes whose vertical gap is at least the separation", "why_tests_cant": "arbitrarily nested prototypes and targets", "anchors": ["r_u_sure/edit_distance_utility/constraint_dags.py:ConstraintDagGraphAnnotator", "r_u_sure/edit_distance_utility/edit_dags.py:EditDagGraphAnnotator", "r_u_sure/edit_distance_utility/edit_dags.py:construct_edit_dag", "r_u_sure/edit_distance_utility/part_selection_dags.py:PartSelectionGraphAnnotator"]}
{"id": "C75", "title": "The debug view of nodes lists all of them, one to a line, and determines them", "statement": "The debug view of any non-empty list of nodes has one line for every node in reading order, parents before children, indented by two blanks for every group around it; the line names the kind of the node, its match type if it has one, and its text, cut after 77 characters if it has more than 80. Two lists of nodes whose texts have at most 80 characters have the same debug view only if they are equal. (Finding: longer texts that begin alike look alike.)", "quantifier": "every list of nodes, every printing of texts without line breaks", "why_tests_cant": "arbitrarily nested nodes; the second claim is about every pair of lists", "anchors": ["r_u_sure/tree_structure/sequence_node_helpers.py:render_debug"]}
{"id": "C76", "title": "Edge tracebacks change nothing but the info of edges, and can be taken off again", "statement": "Whatever parts of a program that adds edges to a DAG run inside blocks that collect tracebacks, nested or not and whether they end with an exception or not, the program adds the same edges up to their info, fails at the same edge with the same exception, and stripping the tracebacks gives exactly the edges it would have added without them. Inside a block without inner blocks every edge gets the frame of its own call, whatever its info was, and keeps the rest of its info; after a block collection is off, also if it raised. (Findings: the end of an inner block turns collection off for the rest of the outer block; an info that is a dictionary with the key original_info is not restored.)", "quantifier": "every program of calls and blocks, every info that does not already look traced", "why_tests_cant": "all nestings of blocks, all points at which an exception may end them", "anchors": ["r_u_sure/decision_diagrams/gated_state_dag.py:adding_edge_tracebacks", "r_u_sure/decision_diagrams/gated_state_dag.py:partial_state_dag_add_edge", "r_u_sure/decision_diagrams/gated_state_dag.py:strip_traceback_from_edge"]}
{"id": "C77", "title": "Without low-confidence regions, the costs for them have no effect", "statement": "For a prototype without region starts, two choices of utility parameters that agree outside regions (match, delete, insert and start-editing costs) give edit DAGs that are the same once pruned, or fail with the same exception. So combining samples with a wrapper that inserts no regions returns exactly the same in both cases: the same system, rounds, bounds, suggestion, statistics and exceptions. In particular the effective precision and the edit sensitivity given to the prefix wrapper have no effect unless it also inserts regions, as its documentation says, for every text in every supported language.", "quantifier": "every prototype without region starts, every target, every pair of parameter sets that agree outside regions; every context, samples, language and clock", "why_tests_cant": "the solver's whole run must be unchanged, for all inputs and all values of the parameters", "anchors": ["r_u_sure/wrappers/prefix_truncation_wrapper.py:PrefixByEditDistanceWrapper.__init__", "r_u_sure/wrappers/uncertainty_regions_wrapper.py:derive_uncertainty_region_costs", "r_u_sure/edit_distance_utility/edit_dags.py:construct_edit_dag", "r_u_sure/wrappers/demo_runner.py:combine"]}
{"id": "C78", "title": "The compiled wrappers return what the pure Python wrappers return", "statement": "Combining samples with a wrapper made with use_numba=True and rewrite_states=False returns exactly what the wrapper made with use_numba=False returns, for the edit-distance wrappers (on trees without decision nodes, as every parse of a text is) and for call sequences (on any trees). With rewrite_states=True, the default, it returns the same in every field but the names of the states in the system's conversion data, which are renamed one-to-one, provided the states of each DAG that is built have different slots in the scratch table: the same suggestion, utilities, bounds, rounds, statistics, packed DAGs and exceptions, whatever the table held before. The rendered pages and the evaluation against a known continuation are the same too. When states share slots the compiled wrapper can build different packed DAGs without raising.", "quantifier": "every parameter set, parser result, context, samples, prototype index, clock, hash function and scratch table", "why_tests_cant": "a difference needs two states of one DAG in the same slot, which depends on hashes and sizes no test controls; equality must hold through packing, solving and reading back for all inputs", "anchors": ["r_u_sure/wrappers/edit_distance_wrapper_base.py:EditDistanceWrapperBase.__init__", "r_u_sure/wrappers/edit_distance_wrapper_base.py:EditDistanceWrapperBase.build_system", "r_u_sure/wrappers/call_sequence_wrapper.py:ApiCallSequenceWrapper.__init__", "r_u_sure/decision_diagrams/gated_state_dag.py:prune_unreachable_and_rewrite_states", "r_u_sure/wrappers/demo_runner.py:combine"]}
{"id": "C79", "title": "Printed parse trees show the tree", "statement": "The printed form of a pseudo-parse tree has exactly one line for every node, in reading order. All lines have a first column of the same width. The second column names the node's range and annotation after three blanks for every ancestor. When no token needs quoting, the first column shows the tokens of the node at their place in the text and underscores for all others, provided the node does not end at 0. Two trees that print alike are equal, whatever the tokens and the way of quoting. An empty node at the start of the text is shown with the first token.", "quantifier": "every tree, token list, way of quoting and class of white space with the usual members", "why_tests_cant": "the tests of the parser compare printed forms, so a printer that confused two trees would hide errors from all of them; only a proof over all trees excludes that", "anchors": ["r_u_sure/parsing/pseudo_parser/stack_parser.py:Node.human_readable_string", "r_u_sure/parsing/pseudo_parser/stack_parser.py:Node.__repr__"]}
{"id": "C80", "title": "Parse-tree nodes stay properly linked: copying and splitting give trees of new nodes and leave the caller's tree alone", "statement": "Parse trees are mutable nodes that know their children and their parent. Copying any tree gives a tree of new nodes of the same shape in which every child's parent is the node whose child it is; bracket matching of any tokens builds such a tree; splitting, which moves nodes about in place one after the other, gives such a tree again, of exactly the shape obtained by splitting and nesting without mutation. No node that existed before the call is changed, so the tree given to be split can still be used. On trees linked this way the validity check, which also compares parents, is the check of the ranges; it accepts both trees for every balanced token list, and it accepts only trees that are linked both ways.", "quantifier": "every memory with any other nodes in it, every tree of any size and depth, all tokens, split tokens, protected pairs and nesting pairs", "why_tests_cant": "aliasing bugs show only for particular trees; the claims are about all trees and all orders of the moves", "anchors": ["r_u_sure/parsing/pseudo_parser/stack_parser.py:Node.copy", "r_u_sure/parsing/pseudo_parser/stack_parser.py:stack_based_bracket_match", "r_u_sure/parsing/pseudo_parser/stack_parser.py:split_parse", "r_u_sure/parsing/pseudo_parser/stack_parser.py:valid_parse_ranges"]}
{"id": "C81", "title": "A suggestion is worth at most its text, and all of it when it comes true", "statement": "When keeping a character outside regions gains the most that any character can gain and no other cost is negative, as for the costs derived from every effective precision and edit sensitivity between 0 and 1, then every way of editing a suggestion into any continuation has a utility of at most the match gain for the characters of the suggestion's tokens, whatever regions and exits are decided; if deleting never pays, also of at most that for the tokens of the continuation. If the continuation is the suggestion itself and nothing is put in a region or cut off, the utility is exactly that gain. Whatever the continuation, an edit without regions exists that costs one start of editing, the deletion of the suggestion and the insertion of the continuation. So the utility reported by combining samples never exceeds the match gain for the chosen sample, and the reported bound is at least the worth of showing it plainly: the full gain for every sample equal to it and a full replacement for the others; when all samples agree it is at least the full gain.", "quantifier": "every suggestion, continuation, set of sensible costs, choice of regions and exits; every context, samples, parser result and clock", "why_tests_cant": "a bound over all edits and all decisions; a test sees single optima", "anchors": ["r_u_sure/edit_distance_utility/edit_dags.py:construct_edit_dag", "r_u_sure/wrappers/uncertainty_regions_wrapper.py:derive_uncertainty_region_costs", "r_u_sure/wrappers/demo_runner.py:combine", "r_u_sure/tree_structure/transforms.py:strip_decision_nodes"]}
{"id": "C82", "title": "When a suggestion that may be cut off early can be cut off altogether", "statement": "With early exits allowed, an exit comes before any text of the suggestion exactly if a token or a group of the parsed text ends at the cursor; otherwise every combined result suggests at least one character of the chosen sample. If the context ends with a token outside groups, suggesting nothing is possible and the reported utility bound is never negative. (Finding: the exit that is inserted at the start of the text is cut off together with the context, even with an empty context, because truncation drops all decision nodes before the first text it keeps. So after white space or inside a token nothing shorter than the first token can be suggested, and the reported bound can be below the 0 that suggesting nothing would be worth.)", "quantifier": "every parsed text, cursor, samples, costs and clock, with or without regions", "why_tests_cant": "the effect depends on where the cursor falls in the parse of each text; the tests never combine insertion of exits with truncation", "anchors": ["r_u_sure/wrappers/edit_distance_wrapper_base.py:EditDistanceWrapperBase._process_prototype_and_context_maybe_exit", "r_u_sure/tree_structure/transforms.py:insert_early_exit", "r_u_sure/tree_structure/transforms.py:truncate_prefix_at_offset"]}
{"id": "C83", "title": "Offering more kinds of decisions never hurts", "statement": "Whatever is decided about a suggestion, the same worth is to be had when more regions could be started or ended and more early exits could be taken: there is one choice for the richer suggestion that every continuation can be edited to at the same cost. So the utility reported with fewer kinds of decisions (regions off, early exits off) is never above the utility bound reported for the same samples with more of them, and a result that reaches its bound is at least as good.", "quantifier": "every pair of sequences of which one has additional region or exit nodes at any depth, every choice, continuation and costs; every context, samples, index, clock and pair of settings", "why_tests_cant": "the optimum ranges over all choices and edits; tests solve single systems and never compare settings", "anchors": ["r_u_sure/wrappers/edit_distance_wrapper_base.py:EditDistanceWrapperBase", "r_u_sure/tree_structure/transforms.py:insert_region_options_around_subsequences", "r_u_sure/tree_structure/transforms.py:insert_early_exit", "r_u_sure/edit_distance_utility/edit_dags.py:construct_edit_dag"]}
{"id": "C84", "title": "How the prices act on the worth of a suggestion", "statement": "At prices that pay no more for any match and ask no less for anything, no decisions about a suggestion can be had for less, so the utility reported at the dearer prices is never above the bound reported at the others. If all prices are multiplied by a positive number, all costs are, so only the ratios of prices matter: two optimal results differ by that factor. With prices derived from a precision, a higher price for starting an edit is dearer and a higher precision is cheaper.", "quantifier": "every pair of price lists, factor, suggestion, continuation, context, samples, index, clock and options", "why_tests_cant": "the claim compares the optima of two systems over all choices and edits; tests fix the prices", "anchors": ["r_u_sure/edit_distance_utility/edit_dags.py:construct_edit_dag", "r_u_sure/edit_distance_utility/edit_dags.py:TrustRegionUtilityParameters", "r_u_sure/wrappers/uncertainty_regions_wrapper.py:derive_uncertainty_region_costs", "r_u_sure/wrappers/edit_distance_wrapper_base.py:EditDistanceWrapperBase"]}
{"id": "C85", "title": "The order of the samples and repeating all of them does not matter", "statement": "Giving the same samples in another order, or all of them repeated equally often, with the same sample chosen, does not change what can be reported: each reported utility is at most the bound reported for the other list, and if both results are optimal their utilities are equal. This holds for edit-distance and for call suggestions.", "quantifier": "every list of samples, every permutation of any number of copies of it, every way to designate the same sample, every context, costs, clock and options", "why_tests_cant": "the optimum ranges over all choices and edits and the solver visits the samples in order; tests use one order", "anchors": ["r_u_sure/wrappers/demo_runner.py:combine", "r_u_sure/wrappers/edit_distance_wrapper_base.py:build_system", "r_u_sure/wrappers/call_sequence_wrapper.py:build_system"]}
{"id": "C86", "title": "How much a suggestion of calls can be worth", "statement": "When finding a token never loses and missing one never gains, as for the prices of the tool at every effective precision between 0 and 1, every selection of parts of a prototype sought in a target is worth at most what all tokens of the prototype are worth when found, and at most what all tokens of the target are. Selecting nothing is always possible and is worth exactly 0. So the utility reported for call suggestions never exceeds the worth of the calls of the chosen sample nor the average worth of the calls of the samples; the reported bound is never negative, and at least the worth of suggesting all calls whole: all of their worth for each sample that makes the same calls, less the cost of missing them for the others. When all samples make the same calls it is at least all of their worth.", "quantifier": "every prototype, target and prices; every context, samples, index, parser result and clock", "why_tests_cant": "a bound over all selections and all places where they can be found; a test sees single optima", "anchors": ["r_u_sure/edit_distance_utility/part_selection_dags.py:make_selection_dag_builder", "r_u_sure/wrappers/call_sequence_wrapper.py:ApiCallSequenceWrapper", "r_u_sure/wrappers/demo_runner.py:combine"]}
{"id": "C87", "title": "How the prices act on a suggestion of calls; the effective precision is the break-even point", "statement": "At prices that pay no more for a token that is found and ask no less for one that is missed, nothing selected can be had for less, so the utility reported at the dearer prices is never above the bound reported at the others. If all prices are multiplied by a positive number, all costs are, and two optimal results differ by that factor. With the prices of the tool a higher effective precision is dearer. Suggesting all calls of the chosen sample whole is worth their base worth (ten for a new name, one for an expected name, one for a list of arguments) times the share of the samples that make the same calls less the effective precision; the reported bound is never below that and never below 0, and the reported utility is at most the base worth times one less the precision.", "quantifier": "every pair of price lists, factor, prototype and target; every effective precision between 0 and 1, context, samples, index, parser result and clock", "why_tests_cant": "the claim compares optima over all selections; tests fix the prices and the samples", "anchors": ["r_u_sure/edit_distance_utility/part_selection_dags.py:make_selection_dag_builder", "r_u_sure/edit_distance_utility/part_selection_dags.py:PartSelectionUtilityParameters", "r_u_sure/wrappers/call_sequence_wrapper.py:ApiCallSequenceWrapper", "r_u_sure/wrappers/demo_runner.py:combine"]}
{"id": "C88", "title": "No baseline beats the combined suggestion on the samples", "statement": "The baselines run on the text of the chosen sample are about the same prototype as the combined result. Each truncation baseline stands for exactly one allowed choice of an exit, each highlighting baseline is an allowed choice of regions, and the constraints of each call baseline are met by an allowed choice. Whatever such a choice gains for the samples on average, however it is edited or selected, is at most the reported utility bound; so an optimal result is worth at least as much as every baseline.", "quantifier": "every context, samples, model tokens, thresholds and other baseline settings, prices, clock; every choice that fits a baseline and every way to edit or select it", "why_tests_cant": "compares the optimum with choices made by other code, for all samples; tests never compare the two", "anchors": ["r_u_sure/wrappers/demo_runner.py:combine", "r_u_sure/wrappers/prefix_truncation_wrapper.py:PrefixByEditDistanceWrapper", "r_u_sure/wrappers/uncertainty_regions_wrapper.py:UncertaintyRegionsWrapper", "r_u_sure/wrappers/call_sequence_wrapper.py:ApiCallSequenceWrapper"]}
{"id": "C89", "title": "Decorations are white space", "statement": "In the nodes parse_to_nodes returns, for every language and every text, every decoration (text that a suggestion shows free of charge and never scores) consists of white space only, and every token is a piece of a string literal, a bracket or other structural node, or has at least one visible character. So the visible characters of the text are, in order, exactly the visible characters of the tokens: nothing visible escapes scoring.", "quantifier": "All texts, all supported languages, flattened or not, all choices of which characters are white space (the newline among them, for the second part).", "why_tests_cant": "Whether a piece of text is scored depends on how the lexer cut it and how the parser labelled it; tests look at a few snippets.", "anchors": ["r_u_sure/wrappers/parser_tools.py:parse_to_nodes", "r_u_sure/parsing/sequence_from_pseudo_parse.py:pseudo_parse_node_to_nested_sequence_node", "r_u_sure/parsing/pseudo_parser/stack_parser.py:Node.type"]}
{"id": "C90", "title": "The white space of a target does not matter", "statement": "Two targets that differ only in their decorations (white space between tokens, at any depth) are scored alike: for every prototype the edit graph, and the selection graph, built for the one has a path with a given cost and given decisions exactly if the one built for the other has. So reformatting a sample never changes what a suggestion is worth on it.", "quantifier": "All prototypes, all pairs of targets that agree after removing decorations, all edit costs and all selection utilities.", "why_tests_cant": "Whether white space leaks into a score depends on how every edge of the graph is built around decorations; tests compare a few small trees.", "anchors": ["r_u_sure/edit_distance_utility/edit_dags.py:make_edit_dag_builder", "r_u_sure/edit_distance_utility/part_selection_dags.py:make_selection_dag_builder", "r_u_sure/tree_structure/sequence_nodes.py:TextDecorationNode"]}
