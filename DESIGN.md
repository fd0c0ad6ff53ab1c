# A formal model of google-research/r_u_sure in Rocq (Coq 8.16.1)

Source under study: `/repo/r_u_sure` (Python, some of it compiled with numba).
Nothing in `/repo` is executed; the model was written by reading it.

## 1. Method

* Each Python function is a small total Gallina function over inductive data.
  Exceptions are values (`Err e` / `None`), generators are lists, dictionaries
  are association lists or functions, numpy arrays are lists.
* Costs are exact rationals extended with `+inf` and `NaN`
  (`Inductive cost := Fin (q : Qc) | Inf | NaN`). `NaN` is the value the code
  uses for not-yet-computed entries, so that a stale or uninitialised read is
  observable in the model. Float rounding is **not** modelled.
* Each definition carries a comment with the file and lines it models, and the
  simplifications made there.
* `Spec_*.v` hold small independent specifications (paths of a graph, least
  cost over a set of paths, balanced brackets, well-formed region choices ...)
  that do not mention the model's functions.
* `Properties_*.v` hold only theorem statements closed by `exact lemma`, an
  `Example` showing that a non-trivial case meets the hypotheses, and
  `Print Assumptions`.
* Where the English property is false of the faithful model, a theorem
  `..._refuted` exhibits a witness, and the property is proved under the
  weakest natural guard.

## 2. Plan per property

| id | modelled | proof idea |
|----|----------|------------|
| C01 | add_edge with its `seen_outgoing` map, histories = lists of calls | invariant by induction on the history |
| C02, C03 | the two passes of compute_reachable_states, both pruning filters | the passes compute graph reachability on ordered lists; path sets by induction |
| C04 | the three passes with scratch table as a function slot -> entry | simulation with the ideal map when slots are injective on states; refuted otherwise |
| C05-C08 | convert_dag_to_packed stage by stage | per-state bounds are sound on all paths; tagged-state paths biject with source paths |
| C09-C13, C53 | packed DAG, tables with NaN, valid ranges, every table operation | table invariant by induction on operations; Bellman equations give least path cost |
| C14-C20, C54 | systems, min_marginal_average, sweeps with an oracle clock, greedy extraction | weak duality, conservation law, monotonicity |
| C21-C25 | node trees, all transforms | structural (nested) induction |
| C26-C30 | pack/unpack, paths, preorder, in-order traversal, walks, depth | structural induction with an explicit builder state |
| C31, C32 | SpanProbHelper as a cursor, align, flatten | invariant: consumed text ++ rest = model text |
| C33 | the tokenizer state machine, character classes as parameters | invariant over the scan; independent split specification |
| C34-C37 | codec, bracket matching, error correction, split parse, desugar | stack invariants, Dyck words |
| C38 | pseudo-parse to nodes | structural induction |
| C39, C40 | truncation index inference, indent inference | bounds by case analysis; divisor argument |
| C41, C42, C47, C48 | region decisions, constraint DAG builder, extraction, HTML | path semantics of the builder, simulation by tree recursion |
| C42-C44, C52 | edit DAG builder | soundness of each edge emitted; ordering by a rank function |
| C45, C46 | part selection builder | same; stale flag refuted with a witness |
| C49 | derive_uncertainty_region_costs | field arithmetic over Qc |
| C50, C51 | baseline builders, call extraction | list induction |
| C55 | composition | from C21, C25, C26, C38, C41, C47 |
| C56 | insert_early_exit | places of exits characterised by tree position, structural induction |
| C57 | path lookup in packed trees (node, subsequence, preorder index) | C26 plus case analysis of every path |
| C58 | pruning and packing of the three builders' DAGs | decisions of a path are strictly increasing keys; C08 |
| C59 | edits and selections for every region choice | completeness of edit scripts by induction on the two trees |
| C60, C61 | build_system, combine, compute_sample_system_info, solution_info | C14-C20 applied to systems dominated by their last DAG |
| C62 | region baselines and the solver run they start | rules by list induction; C60 with a frozen subset of the keys |
| C63 | the regular expressions of the codec presets, re.finditer | backtracking matcher in continuation-passing style, totality of the last alternative |
| C64 | PseudoParser.preset, parse_and_maybe_preprocess, ParserHelper | composition of C34-C38 with re-encoding stability of Python text |
| C65 | combine on raw text | C55, C60 with the parser hypothesis discharged by C64 |
| C66 | `build_baselines` on raw model output | RunBaselines.v on top of the wrappers; C61/C62/C51 for the assignments, C47 for the shown text, C64 for the parser |
| C67 | The display functions of the runner and the wrappers | Show.v; a reader of pages (ShowSpec.v) composed piece by piece; best paths behind a result (CombinePaths.v) and C48, C50, C52 for their contents |
| C68 | `solution_info` with an evaluation target | Show.v; the single-target system of C60's builder (CombinePaths.v), C52 for the metrics, SelectionVerdicts.v for the counters |
| C69 | find_python_function_docstrings | Docstrings.v; induction over the tree against the relation `next_sibling`, sibling ranges are disjoint, so positions are distinct; LineProofs.v: groups under a node end with a newline |
| C70 | render_dag and the geometry it uses | Drawing.v; calls as data, DrawSpec.v says what each call must be; C03 for reachability |
| C71 | SVGRenderer | Drawing.v; a reader of SVG (DrawSpec.v) composed call by call, the view box by induction over calls (DrawBounds.v) |
| C72 | SimpleDAGAnnotator, to_bounded_irrational | SimpleAnnotator.v; linear arithmetic from a sigmoid in [0,1], Gauss's lemma for the period |
| C73 | the three graph annotators | Layouts.v; intervals handed out by one walk of the tree are disjoint and in reading order (LayoutProofs.v, LayoutFrames.v), every edge of the builders goes forward in that order (LayoutEdges.v); composed with C70 and C71 |
| C74 | their extra annotations, the render data | LayoutSpec.v says where a text must stand; induction over the same walk; the regions by induction over both trees |
| C75 | render_debug | DebugView.v; DebugSpec.v gives the outline and what a line says; injectivity by reading the lines back by depth |
| C76 | adding_edge_tracebacks, partial_state_dag_add_edge, strip_traceback_from_edge | Tracebacks.v: programs of calls and blocks over a global flag; induction over the program, related to the run without tracebacks |
| C77 | construct_edit_dag, prune_to_reachable, derive_uncertainty_region_costs, combine | RegionParameters.v: the two edge lists are related edge by edge, no edge enters a region, so pruning leaves equal lists; everything downstream is a function of them |
| C78 | the constructors' choice of builders, pruning and packing under use_numba and rewrite_states; build_system; combine | NumbaBuild.v, NumbaSpec.v, NumbaProofs.v: packing commutes with renaming states that keeps them apart (through an embedding in a sum type, MapDag.v), C04 gives the renaming, the solver never sees states, reading back commutes with renaming, the reports and evaluations (Properties_NumbaShow.v) do not look at states |
| C79 | Node.__repr__, Node.human_readable_string | TreePrint.v; PrintSpec.v gives the outline, the words and the highlighting; injectivity by reading each line from its end and the depths back |
| C80 | Node, Node.copy, stack_based_bracket_match, split_parse and valid_parse_ranges on linked, mutable nodes | HeapTree.v and HeapMatch.v model memory as a list of nodes; LinkSpec.v says when memory holds a tree; each function refines its version on plain trees in StackParser.v, by induction with a frame for the rest of memory. So leaving parents out of StackParser.v and making all transplants at once there is justified by proof |
| C81 | construct_edit_dag, derive_uncertainty_region_costs, combine | UtilityBounds.v: induction over the edit relation of C44 for the bounds, an explicit edit that keeps or replaces everything; stripping commutes with cutting off a prefix; C60 for the reported values |
| C82 | insert_early_exit, truncate_prefix_at_offset, combine | ExitProofs.v: characters and exits in reading order, exits stand where tokens and groups end; ExitSuggestion.v: C25 for truncation, C47 for what is shown, C60 for the bound |
| C83 | insert_region_options_around_subsequences, insert_early_exit, truncation, edit and constraint DAGs, combine | MoreOptions.v: both labelled trees side by side, decisions for the larger one read off those for the smaller one with new options declined; inductions over edits and choices; then C44 and C60 |
| C84 | TrustRegionUtilityParameters, derive_uncertainty_region_costs, edit DAG, combine | PriceProofs.v: the same edits exist at all prices, induction over edits for cost comparison and scaling; then C44 and C60 |
| C85 | combine, both wrappers | Properties_Order.v: least costs are unique, averages are invariant under permutation and copies; then C60 |
| C86 | part selection DAG, call extraction, combine | CallWorth.v: induction over selections (C45) for both bounds, one explicit choice of all calls that is found whole or missed whole; then C60 |
| C87 | part selection DAG, prices of the call wrapper, combine | Properties_CallPrices.v: the same selections exist at all prices, induction over them for comparison and scaling; C86 for the break-even point; then C45 and C60 |
| C88 | combine and the three baseline builders | Properties_NoBaseline.v: C66 with C50, C62 and C51 give allowed choices of the same prototype; C60 bounds them; from raw text in Properties_RawBaselines.v; BlankProofs.v shows that parse trees outside Python have no blank decoration before a group, so Properties_DirectCalls.v needs no white-space condition there |
| C89 | parse_to_nodes, Node.type | Properties_Visible.v: induction over the parse tree for the leaves; C64 for the text |
| C90 | edit and selection graphs | Properties_Reformat.v: induction over the edits of C44 and the selections of C45, with both targets stripped of decorations |

The exact list of what is modelled is in section 4; what is not modelled, and why,
is in section 4.2.

## 3. Trusted base

* Coq 8.16.1's kernel, and its `vm_compute` for the concrete examples.
* No axioms: section 5 gives what `Print Assumptions` prints for each theorem.
* The correspondence between the Python text and the Gallina definitions,
  which is by inspection only. Each definition cites the lines it models, and
  section 4.1 lists the simplifications.
* The seeded bugs in `seeded/LOG.jsonl` are evidence that the statements are not
  vacuous. They are not part of the trusted base.

## 4. What is modelled

| Source (`/repo/r_u_sure`) | Model | Lines left out |
|---|---|---|
| decision_diagrams/gated_state_dag.py | Graph.v, GatedDag.v, GatedDagRewrite.v, Tracebacks.v | numba overload plumbing |
| decision_diagrams/packed_dags.py | PackedDag.v, Convert.v | numba specialisation (228-342, 900-940) |
| decision_diagrams/consistent_path_dual_solver.py | DualSolver.v | typed numba lists |
| tree_structure/sequence_nodes.py, sequence_node_helpers.py | SeqNodes.v, DebugView.v | repr of texts (a parameter) |
| tree_structure/transforms.py | Transforms.v | none |
| tree_structure/packed_sequence_nodes.py | PackedSeq.v | numba overload (596-611) |
| tree_structure/token_prob_align.py | TokenProb.v, Show.v | none |
| parsing/subtokenizer.py, sequence_from_pseudo_parse.py | Subtokenizer.v, PseudoParse.v | none |
| parsing/pseudo_parser/stack_parser.py | StackParser.v, PseudoParse.v, Lexer.v, ParserTools.v, TreePrint.v, HeapTree.v, HeapMatch.v | repr of texts (a parameter) |
| parsing/pseudo_parser/utilities.py | PseudoParse.v, ParserTools.v, Docstrings.v | none |
| edit_distance_utility/region_decisions.py | Decisions.v, RegionDecisions.v, Html.v | short names for display |
| edit_distance_utility/constraint_dags.py | ConstraintDag.v, Layouts.v (graph annotator) | `repr` and printing of costs (parameters) |
| edit_distance_utility/edit_dags.py | EditDag.v, EditReport.v, Layouts.v (render data, graph annotator) | `repr` and printing of costs (parameters) |
| edit_distance_utility/part_selection_dags.py | SelectionDag.v, SelectionReport.v, Layouts.v (graph annotator) | `repr` and printing of costs (parameters) |
| wrappers/wrapper_base.py, edit_distance_wrapper_base.py | BuildSystem.v, Combine.v, Show.v, NumbaBuild.v | none |
| wrappers/uncertainty_regions_wrapper.py | CostDerivation.v, RegionBaselines.v | constructor plumbing |
| wrappers/prefix_truncation_wrapper.py | PrefixBaselines.v, RunBaselines.v | constructor plumbing |
| wrappers/call_sequence_wrapper.py | CallSequence.v, Combine.v, Show.v, NumbaBuild.v | none |
| wrappers/parser_tools.py | ParserTools.v | none |
| wrappers/demo_runner.py | Combine.v, RunBaselines.v, Show.v | the call to IPython.display, format of rounded numbers |
| rendering/rendering.py, dag_annotator.py, svg_renderer.py | Drawing.v, SimpleAnnotator.v (to_bounded_irrational) | printing of floats (a parameter) |
| rendering/simple_dag_annotator.py | SimpleAnnotator.v | the exponential (a parameter), `str`, `repr` and hash of states and assignments (parameters) |

Files ending in `Spec.v` (ConstraintSpec, EditSpec, SelectionSpec, CallSpec,
DualSpec, SystemSpec, CombineSpec, LexSpec, ShowSpec, DocSpec, DrawSpec, DebugSpec, NumbaSpec, PrintSpec), the sections called `Spec` or `Rules`
of the model files, and Graph.v after its records are specification: they mention
no function of the code. The header of each `Properties_*.v` names the vocabulary
its statements use.

### 4.1 Simplifications

* Floats are exact rationals with `Inf` and `NaN`. Rounding, overflow and negative
  infinity are not modelled. Bounds such as C14 and C60 are therefore about
  exact arithmetic.
* Mutation in place is threaded state. An operation that raises loses its partial
  mutation. Aliasing between copies is not modelled.
* Python ints are `nat` or `Z`. Text is a list of code points (`nat`). Character
  classes (`str.isupper`, `\s`, `\d`, ...) are parameters of the model, so
  theorems hold for every choice of them, unless a hypothesis says otherwise
  (`ascii_digits`, newline is white space).
* The wall clock and the numpy random generator are parameters (an oracle list).
* A solver run takes a bound on its rounds. Running out of it is the outcome
  `None`, never a normal value. The theorems that speak of a run either assume it
  returned or show that some bound suffices (C20, C55).
* Dictionaries are association lists, sets are duplicate-free lists. Iteration order
  is insertion order, as in CPython. Where the code sorts, the order is a
  parameter with its laws.
* Numba-compiled variants are modelled by the pure Python text they compile.
  Where the source has two texts (`prune_to_reachable`), both are modelled and
  proved equal (C03).
* The hash-table sizes of numba lists and dictionaries are not modelled, except
  the scratch table of `prune_unreachable_and_rewrite_states` (C04, C78).

### 4.2 Not modelled

* rendering/render_in_notebook.py (scripts for the notebook).
* numba_helpers/: type plumbing with no run-time meaning in Python.
* notebooks/demo_examples.py: data.

## 5. Assumptions of the theorems

Every `Print Assumptions` in `Properties_*.v` prints `Closed under the global
context`: no theorem depends on any axiom, not even one of the standard library.
`vcheck` lists library axioms it finds in the compiled environment of imported
standard library files. None of them is used by a theorem here.

`coqchk` on all modules reports the same.

## 6. Findings about the code

Each is a theorem `..._refuted`, or shapes the guard of a theorem, unless marked
(text).

* C01: an edge from a state to itself is accepted, so accepted DAGs can be cyclic.
  The documented ValueError is not always what is raised.
* C02, C03: without the edge order, pruning loses reachable states.
* C04: `prune_unreachable_and_rewrite_states` loses paths when two states share a
  slot. With no complete path it indexes out of bounds.
* C78: so the default wrappers can build a wrong system without raising. The table has
  2**25 slots: among ten thousand states one shared slot is to be expected.
* C08: unpruned DAGs whose complete paths are in order can be refused.
* C11, C12: strategies disagree without variables. An infeasible DAG still yields a path.
* C14, C16, C20: empty systems, penalties near infinity, and time-outs.
* C22: stripping after a single insertion does not always give back the tree.
* C25: offset zero drops leading zero-width nodes. A negative offset is not refused.
* C30: packed depth differs from true depth with empty groups.
* C34: non-unique codec entries do not decode to what was added.
* C36-C40: uncorrected input, missing final newline, reversed children,
  closing bracket truncation and unsorted candidates break the documented result.
* C42, C58: the part-selection builder emits out-of-order edges for nested regions.
  Edit targets with decision nodes and selection prototypes with early exits have
  no path, so packing raises.
* C46: a stale flag is guarded by the order of edges.
* C50, C51: prefix baselines fail on prototypes with regions. Call baselines can
  raise on prototypes with nothing but context.
* C55: with no finite-cost solution combine returns no suggestion.
* C63: in the C family no text is ever lexed as a string literal, because quoted
  texts are alternatives of the comment pattern, which comes first.
* C64, C65: the empty text raises IndexError in Python, in the parser and in
  `combine`.
* C68: empty argument lists are part of the total cost of an evaluation, but none of
  its counters shows them.
* C69: docstring positions are not always in the order of the text. The empty text
  raises IndexError.
* C70: an edge of infinite cost between two reachable states is drawn as a reachable
  edge. A DAG without edges is drawn without its states.
* C71: a label that should go above a point is drawn below it. A label of several
  lines beside a point is not centred on it.
* C72: `to_bounded_irrational` repeats with period 161803 in exact arithmetic.
* C75: two texts of more than 80 characters that begin alike look alike in the debug
  view.
* C76: leaving an inner `adding_edge_tracebacks` block turns tracebacks off for the rest
  of the outer block. An info dictionary with the key `original_info` is not restored.
* C79: an empty node at the start of the text is printed with the first token.
* C82: the early exit inserted at the start of the text is always cut off with the
  context. After white space or inside a token nothing shorter than the first token can
  be suggested, and the reported bound can be negative.
* (text) Emphasis matches edges without their info, so parallel edges that differ in
  info only light up together. An empty generator of emphasised edges counts as a
  non-empty list. Style tags are not escaped.
* (text) `Node.type` compares a token type with `NodeType.STRING_LITERAL`. Both
  enumerations give it the value 9, so the comparison works by coincidence.
* (text) The docstring of `PackedStateDAG` is off by one about the last edge group.
* (text) The cursor leaf of truncation inference is the first leaf that starts
  after the cursor.
* (text) The wrapper inserts early exits after regions. The docstring says before.
* (text) The Python preset lists square brackets twice as unsplittable and never
  curly ones.
* (text) `infer_python_spaces_per_indent` returns 1 for empty text.
