{
 "claims": [
  {
   "property": "C01",
   "status": "proved",
   "theorems": [
    "C01_graph_is_pair_of_sets"
   ],
   "note": "All histories and hash orders (relation built_by)."
  },
  {
   "property": "C02",
   "status": "proved",
   "theorems": [
    "C02_listings"
   ],
   "note": ""
  },
  {
   "property": "C03",
   "status": "partial",
   "theorems": [
    "C03_edge_count_refuted",
    "C04_edge_count_loop_free"
   ],
   "note": "REFUTED: a self-loop is stored once, so {1->1} has edge_count 0. True for loop-free graphs (C04_edge_count_loop_free)."
  },
  {
   "property": "C04",
   "status": "proved",
   "theorems": [
    "C04_edge_count_law",
    "C04_edge_count_loop_free"
   ],
   "note": ""
  },
  {
   "property": "C05",
   "status": "proved",
   "theorems": [
    "C05_return_values"
   ],
   "note": ""
  },
  {
   "property": "C06",
   "status": "partial",
   "theorems": [
    "C06_remove_edge_result_refuted",
    "C06_remove_edge_result_constant"
   ],
   "note": "REFUTED: remove_edge always returns true (FIXME in the source)."
  },
  {
   "property": "C07",
   "status": "proved",
   "theorems": [
    "C07_idempotent"
   ],
   "note": ""
  },
  {
   "property": "C08",
   "status": "proved",
   "theorems": [
    "C08_no_panic"
   ],
   "note": "The unwraps of contains_edge and add_edge are the only ones in directed_graph.rs."
  },
  {
   "property": "C09",
   "status": "partial",
   "theorems": [
    "C09_equality_refuted",
    "C09_equality_sound",
    "C09_equality_exact"
   ],
   "note": "REFUTED: == compares edge vectors in insertion order. Proved: == is sound and independent of the hash order, and C09_equality_exact says exactly, in terms of the two histories, when it holds."
  },
  {
   "property": "C10",
   "status": "proved",
   "theorems": [
    "C10_as_commands_roundtrip"
   ],
   "note": ""
  },
  {
   "property": "C11",
   "status": "proved",
   "theorems": [
    "C11_revert_involution",
    "C11_revert_undoes"
   ],
   "note": "The condition is shown to be exact (iff)."
  },
  {
   "property": "C12",
   "status": "partial",
   "theorems": [
    "C12_revert_refuted",
    "C11_revert_undoes"
   ],
   "note": "REFUTED: e.g. RemoveVertex loses incident edges; C11_revert_undoes gives the exact condition."
  },
  {
   "property": "C13",
   "status": "proved",
   "theorems": [
    "C13_line_roundtrip",
    "C13_display"
   ],
   "note": "All four commands, all u64 ids; the written line also has no carriage return. C13_display: ids are written as the unique decimal numeral without leading zeros. The regexes are modelled as data with a backtracking matcher; the class \\d is any table that agrees with ASCII and contains no white space."
  },
  {
   "property": "C14",
   "status": "proved",
   "theorems": [
    "C14_gcmd_grammar"
   ],
   "note": "Exact: accepted commands and errors characterised by a grammar on concatenations."
  },
  {
   "property": "C15",
   "status": "partial",
   "theorems": [
    "C15_parse_panics_refuted",
    "C15_panics_exactly"
   ],
   "note": "REFUTED: an id of 2^64 or more, or written with non-ASCII digits, panics in both parsers. C15_panics_exactly characterises the panicking lines."
  },
  {
   "property": "C16",
   "status": "proved",
   "theorems": [
    "C16_reader",
    "C16_lines_unique",
    "C16_blank_line_is_error"
   ],
   "note": "For every parser; a panic of the parser on the first undecodable line is also characterised. Files that are not valid UTF-8 are not modelled."
  },
  {
   "property": "C17",
   "status": "proved",
   "theorems": [
    "C17_gcmd_roundtrip"
   ],
   "note": ""
  },
  {
   "property": "C18",
   "status": "proved",
   "theorems": [
    "C18_append",
    "C18_append_needs_line_break"
   ],
   "note": "C18_append_needs_line_break shows that the final line break is needed."
  },
  {
   "property": "C19",
   "status": "proved",
   "theorems": [
    "C19_tgf_roundtrip"
   ],
   "note": ""
  },
  {
   "property": "C20",
   "status": "partial",
   "theorems": [
    "C20_label_refuted",
    "C20_tgf_grammar",
    "C20_labels_ignored"
   ],
   "note": "REFUTED: the vertex line '1 2nd street' is read as the edge 1 -> 2. C20_tgf_grammar gives the exact grammar; C20_labels_ignored proves the claim for labels that do not start with a digit."
  },
  {
   "property": "C21",
   "status": "proved",
   "theorems": [
    "C21_init"
   ],
   "note": "Init fails only when graph or commands is the wrong kind of entry (a file where a directory is needed or the reverse). A content that was not a graph before stays so. Permissions, full disks and symbolic links are not modelled."
  },
  {
   "property": "C22",
   "status": "proved",
   "theorems": [
    "C22_histories",
    "C22_histories_succeed"
   ],
   "note": "Every invocation has its own buffering and hash order; C22_histories_succeed shows that none of them fails."
  },
  {
   "property": "C23",
   "status": "proved",
   "theorems": [
    "C23_build"
   ],
   "note": "Both directions, including that a failed load changes nothing."
  },
  {
   "property": "C24",
   "status": "proved",
   "theorems": [
    "C24_with_lock",
    "C24_apply"
   ],
   "note": "For every action that leaves the lock file in place; C24_apply gives the resulting file for the adding and removing calls."
  },
  {
   "property": "C25",
   "status": "partial",
   "theorems": [
    "C25_mutual_exclusion_refuted",
    "C25_spurious_failure_refuted"
   ],
   "note": "REFUTED: for any two actions both processes can be inside at once (the lock file is created, not acquired). A process can then also report a failure although its commands were stored."
  },
  {
   "property": "C26",
   "status": "partial",
   "theorems": [
    "C26_lost_update_refuted",
    "C26_mixed_lines_refuted",
    "C26_concurrent_appends",
    "C26_no_byte_lost"
   ],
   "note": "REFUTED: from every loadable directory, an addition completed between the read and the write of gc-build disappears, both exiting with success; and with several writes per process the lines of two additions can mix into an unreadable file. Proved: any number of concurrent additions and removals whose text reaches the file in one write lose nothing, under every schedule and at every point of it; and however the texts are cut into writes, the file grows by the pieces of all processes, each process's own in order."
  },
  {
   "property": "C27",
   "status": "partial",
   "theorems": [
    "C27_torn_line_refuted",
    "C27_next_addition_lost_refuted",
    "C27_crash_append"
   ],
   "note": "REFUTED when a crash cuts a write call (see C96 for kills between calls): AddVertex 12 can be left as AddVertex 1 or as an unreadable Add, and the next addition can be glued to a torn line. Proved: at every crash point the old content is intact and the file reads as the old commands and a prefix of the new ones, except that one last command may be cut (final digits missing) or unreadable; it never panics."
  },
  {
   "property": "C28",
   "status": "partial",
   "theorems": [
    "C28_build_crash_refuted",
    "C28_build_crash"
   ],
   "note": "REFUTED: from every loadable directory, a crash right after the file was truncated leaves the empty graph. Proved: at every crash point nothing changed or the file is a prefix of the new text."
  },
  {
   "property": "C29",
   "status": "proved",
   "theorems": [
    "C29_vertex_attributes",
    "C29_edge_attributes",
    "C29_foreign_commands_and_results"
   ],
   "note": ""
  },
  {
   "property": "C30",
   "status": "proved",
   "theorems": [
    "C30_path_queries"
   ],
   "note": ""
  },
  {
   "property": "C31",
   "status": "proved",
   "theorems": [
    "C31_check_complete"
   ],
   "note": "holds (ConstraintSpec.v) is a Prop-level semantics written without the checker."
  },
  {
   "property": "C32",
   "status": "proved",
   "theorems": [
    "C32_check_partial_sound"
   ],
   "note": ""
  },
  {
   "property": "C33",
   "status": "proved",
   "theorems": [
    "C33_ordered",
    "C33_repeated",
    "C33_repeated_refuted"
   ],
   "note": ""
  },
  {
   "property": "C34",
   "status": "proved",
   "theorems": [
    "C34_validate_exact",
    "C34_validate_rejects"
   ],
   "note": ""
  },
  {
   "property": "C35",
   "status": "partial",
   "theorems": [
    "C35_validate_accepts_refuted",
    "C35_validate_accepts"
   ],
   "note": "REFUTED: validate rejects some satisfiable lists. Proved: it accepts satisfiable lists in which no singular kind is repeated."
  },
  {
   "property": "C36",
   "status": "partial",
   "theorems": [
    "C36_max_score_refuted",
    "C36_max_score_actual"
   ],
   "note": "REFUTED: the --max-score builder makes a MinScore constraint."
  },
  {
   "property": "C37",
   "status": "proved",
   "theorems": [
    "C37_conservation",
    "C37_queue_fifo",
    "C37_stack_lifo",
    "C37_priority_queues"
   ],
   "note": "Histories of pushes and pops; the priority queues are a model of the std binary heap ordered by an integer key."
  },
  {
   "property": "C38",
   "status": "proved",
   "theorems": [
    "C38_bfs_reachable"
   ],
   "note": ""
  },
  {
   "property": "C39",
   "status": "proved",
   "theorems": [
    "C39_bfs_by_distance",
    "C39_exact"
   ],
   "note": ""
  },
  {
   "property": "C40",
   "status": "proved",
   "theorems": [
    "C40_dfs_reachable",
    "C40_dfs_start"
   ],
   "note": ""
  },
  {
   "property": "C41",
   "status": "partial",
   "theorems": [
    "C41_dfs_preorder_refuted",
    "C41_dfs_order",
    "C41_exact"
   ],
   "note": "REFUTED: vertices are marked when pushed, so the order is not a depth-first preorder. C41_dfs_order proves what holds instead, and C41_exact describes the whole output: always the vertex seen last, in the order in which each was seen first."
  },
  {
   "property": "C42",
   "status": "proved",
   "theorems": [
    "C42_simple_paths",
    "C42_exact"
   ],
   "note": ""
  },
  {
   "property": "C43",
   "status": "proved",
   "theorems": [
    "C43_best_first",
    "C43_order"
   ],
   "note": ""
  },
  {
   "property": "C44",
   "status": "proved",
   "theorems": [
    "C44_a_star_iff_reachable"
   ],
   "note": ""
  },
  {
   "property": "C45",
   "status": "proved",
   "theorems": [
    "C45_unit_cost_shortest"
   ],
   "note": ""
  },
  {
   "property": "C46",
   "status": "partial",
   "theorems": [
    "C46_a_star_optimal_refuted",
    "C46_order_preserving",
    "C46_head_weights",
    "C45_unit_cost_shortest",
    "C46_what_it_returns"
   ],
   "note": "REFUTED: vertices are marked visited when pushed. C46_what_it_returns says which path is returned, whatever the costs. Proved: optimal, for every queue popping a least element, when the score is order-preserving (extending by the same vertex keeps the order of two walks), in particular for weights whose reduced cost under a consistent heuristic depends only on the head of the edge, and for unit costs (C45)."
  },
  {
   "property": "C47",
   "status": "proved",
   "theorems": [
    "C47_constrained_optimal",
    "C47_order"
   ],
   "note": "C47_order is for the constraints the programs build and any score."
  },
  {
   "property": "C48",
   "status": "proved",
   "theorems": [
    "C48_constrained_complete"
   ],
   "note": ""
  },
  {
   "property": "C49",
   "status": "partial",
   "theorems": [
    "C49_unsat_terminates_refuted",
    "C50_bounded_terminates"
   ],
   "note": "REFUTED: diverges on a cyclic graph. Terminates under a length bound or the no-cycle constraint (C50)."
  },
  {
   "property": "C50",
   "status": "proved",
   "theorems": [
    "C50_bounded_terminates"
   ],
   "note": ""
  },
  {
   "property": "C51",
   "status": "proved",
   "theorems": [
    "C51_topological_sort"
   ],
   "note": ""
  },
  {
   "property": "C52",
   "status": "partial",
   "theorems": [
    "C52_topo_self_loop_refuted",
    "C52_topo_exact"
   ],
   "note": "REFUTED: a graph whose only cycle is one self-loop on a sink gets an order that misses the sink. C52_topo_exact gives the exact condition and content on every graph."
  },
  {
   "property": "C53",
   "status": "proved",
   "theorems": [
    "C53_dag_shortest"
   ],
   "note": "i64 additions are checked; a returned map means no overflow happened."
  },
  {
   "property": "C54",
   "status": "partial",
   "theorems": [
    "C54_dag_no_panic_refuted",
    "C54_dag_panic_exact",
    "C54_dag_no_panic"
   ],
   "note": "REFUTED: 1->2, 3->4 from 1 panics. The exact panic condition and a sufficient condition on the graph are proved."
  },
  {
   "property": "C55",
   "status": "proved",
   "theorems": [
    "C55_dag_longest"
   ],
   "note": ""
  },
  {
   "property": "C56",
   "status": "proved",
   "theorems": [
    "C56_bellman_ford"
   ],
   "note": ""
  },
  {
   "property": "C57",
   "status": "proved",
   "theorems": [
    "C57_spfa"
   ],
   "note": ""
  },
  {
   "property": "C58",
   "status": "proved",
   "theorems": [
    "C58_spfa_agrees",
    "C58_spfa_negative_never_returns",
    "C58_spfa_negative_panics",
    "C58_spfa_ends"
   ],
   "note": "The panic comes only when i64 is exhausted; memory is unbounded in the model."
  },
  {
   "property": "C59",
   "status": "proved",
   "theorems": [
    "C59_max_flow_feasible"
   ],
   "note": "For every built graph, start <> end and capacities summing below 2^64."
  },
  {
   "property": "C60",
   "status": "partial",
   "theorems": [
    "C60_max_flow_not_maximum_refuted",
    "C60_max_flow_positive"
   ],
   "note": "REFUTED: unit capacities, 1->2->3->4, 2->5->6->4, 1->7->8->3: the code returns 1, a flow of 2 exists (residual edges are never used). Proved instead: the value is positive iff a path of positive capacity exists; the flow is blocking (C61) and at least the maximum divided by the length of a longest path (C117)."
  },
  {
   "property": "C61",
   "status": "proved",
   "theorems": [
    "C61_max_flow_blocking"
   ],
   "note": "Every directed walk from start to end has a saturated edge (hypotheses of C59)."
  },
  {
   "property": "C62",
   "status": "partial",
   "theorems": [
    "C62_max_flow_panics_refuted",
    "C62_max_flow_no_panic"
   ],
   "note": "REFUTED: start == end panics on every graph. Proved: no panic when start <> end and the capacities sum below 2^64."
  },
  {
   "property": "C63",
   "status": "proved",
   "theorems": [
    "C63_hamiltonian_paths",
    "C63_is_path_hamiltonian",
    "C63_exact"
   ],
   "note": ""
  },
  {
   "property": "C64",
   "status": "proved",
   "theorems": [
    "C64_canonical",
    "C64_canonical_rotation",
    "C64_from_vertices"
   ],
   "note": ""
  },
  {
   "property": "C65",
   "status": "proved",
   "theorems": [
    "C65_cycle_iter_sound"
   ],
   "note": ""
  },
  {
   "property": "C66",
   "status": "proved",
   "theorems": [
    "C66_cycle_iter_complete",
    "C66_strongly_connected"
   ],
   "note": "The output is characterised exactly."
  },
  {
   "property": "C67",
   "status": "partial",
   "theorems": [
    "C67_connected_cycles_missed_refuted",
    "C67_order_dependent_refuted",
    "C67_all_cycles_from_sources"
   ],
   "note": "REFUTED: 1->2<-3<->4 is connected and has a cycle, none is found; and for one history the cycles found depend on the hash order. Proved: all cycles are found when every vertex is reachable from a vertex without incoming edges, and (C66) in strongly connected graphs."
  },
  {
   "property": "C68",
   "status": "proved",
   "theorems": [
    "C68_hamiltonian_cycle"
   ],
   "note": ""
  },
  {
   "property": "C69",
   "status": "proved",
   "theorems": [
    "C69_extremal"
   ],
   "note": ""
  },
  {
   "property": "C70",
   "status": "partial",
   "theorems": [
    "C70_closing_edge_refuted",
    "C70_cycle_filter",
    "C70_inner_edges"
   ],
   "note": "REFUTED: the closing edge is not seen by the include/exclude edge constraints. Proved: the printed set is exactly the cycles found whose vertex list satisfies the constraints, and edges other than the closing one are handled exactly."
  },
  {
   "property": "C71",
   "status": "proved",
   "theorems": [
    "C71_patterns",
    "C71_edges"
   ],
   "note": ""
  },
  {
   "property": "C72",
   "status": "proved",
   "theorems": [
    "C72_arguments"
   ],
   "note": "Also pairs of ids (parse_edge_list)."
  },
  {
   "property": "C73",
   "status": "proved",
   "theorems": [
    "C73_random_dag"
   ],
   "note": "The random numbers are an arbitrary stream."
  },
  {
   "property": "C74",
   "status": "partial",
   "theorems": [
    "C74_never_returns_refuted",
    "C74_returns",
    "C118_returns_iff"
   ],
   "note": "REFUTED: with a vertex count of 0 or 1 and an edge count above 0 the loop never ends, whatever the random numbers. Proved: with a vertex count of at least 2 it returns as soon as the stream holds as many distinct large values as edges are asked for; C118_returns_iff is the exact condition."
  },
  {
   "property": "C75",
   "status": "partial",
   "theorems": [
    "C75_vertex_count_refuted",
    "C75_vertex_count"
   ],
   "note": "REFUTED: the second end of each edge is any u64, so 2 vertices and 3 edges give 4 vertices. Proved: at most vertex_count - 1 vertices plus one per edge."
  },
  {
   "property": "C76",
   "status": "proved",
   "theorems": [
    "C76_desc",
    "C76_exact"
   ],
   "note": "The whole output is characterised (C76_exact in terms of the sets of vertices and edges only; the edge count is that of C04); a graph that cannot be read is a panic."
  },
  {
   "property": "C77",
   "status": "partial",
   "theorems": [
    "C77_silent_loss_refuted",
    "C81_exit_status"
   ],
   "note": "REFUTED: for all well-formed options, on every directory without a commands file, gc-add stores nothing and exits with success. C81_exit_status: the exit status depends on the arguments only."
  },
  {
   "property": "C78",
   "status": "proved",
   "theorems": [
    "C78_clean"
   ],
   "note": "The lock file must be openable. The answer to the confirmation is any text; it counts as yes iff it is y or yes surrounded by white space."
  },
  {
   "property": "C79",
   "status": "proved",
   "theorems": [
    "C79_builders"
   ],
   "note": ""
  },
  {
   "property": "C80",
   "status": "proved",
   "theorems": [
    "C80_gc_add"
   ],
   "note": "The values clap hands over are the input of the model; C143 to C149 are about clap's parser."
  },
  {
   "property": "C81",
   "status": "partial",
   "theorems": [
    "C81_partial_effect_refuted",
    "C81_exit_status"
   ],
   "note": "REFUTED: on every readable directory, --vertex v --edge x adds v and then fails. Proved: success iff all values are well formed."
  },
  {
   "property": "C82",
   "status": "proved",
   "theorems": [
    "C82_gc_delete"
   ],
   "note": ""
  },
  {
   "property": "C83",
   "status": "proved",
   "theorems": [
    "C83_random_stored"
   ],
   "note": ""
  },
  {
   "property": "C84",
   "status": "partial",
   "theorems": [
    "C84_short_path",
    "C84_absent_vertex_refuted"
   ],
   "note": "REFUTED in the last clause: asked for a path from a vertex to itself, the program reports a path of cost 0 although the vertex is not in the graph. Proved: everything else, for every queue that pops a least element."
  },
  {
   "property": "C85",
   "status": "partial",
   "theorems": [
    "C85_csp",
    "C85_listing_unambiguous",
    "C85_max_score_refuted"
   ],
   "note": "REFUTED for --max-score, which builds a lower bound (C36): with --max-score 1 a path of cost 2 is printed. Proved for all other options and all their combinations; --ordered lists without repetition."
  },
  {
   "property": "C86",
   "status": "partial",
   "theorems": [
    "C86_malformed_refuted",
    "C86_malformed_csp",
    "C86_malformed_cycle",
    "C86_single_edge_value"
   ],
   "note": "REFUTED: --max-length 1O is ignored and a path of 12 vertices is printed. Proved: a value that denotes nothing is ignored, in every combination of options; a single value never denotes an edge list."
  },
  {
   "property": "C87",
   "status": "partial",
   "theorems": [
    "C87_cycle",
    "C87_all_seen",
    "C87_unseen_refuted"
   ],
   "note": "REFUTED: with an isolated vertex besides a cycle, the girth is reported as Infinity in every hash order (C67). Proved: the whole output of every action for the cycles the search sees, and that these are all cycles if every vertex is reachable from one without entering edges, or every vertex from every other. The actions are exclusive and required (clap group)."
  },
  {
   "property": "C88",
   "status": "partial",
   "theorems": [
    "C88_topo_sort",
    "C88_exact",
    "C88_self_loop_refuted"
   ],
   "note": "REFUTED: on a graph with a self-loop an order without the looping vertex is printed. Proved for graphs without self-loops; C88_exact gives the exact output on every graph."
  },
  {
   "property": "C89",
   "status": "proved",
   "theorems": [
    "C89_read_only",
    "C89_failure"
   ],
   "note": ""
  },
  {
   "property": "C90",
   "status": "partial",
   "theorems": [
    "C90_short_path",
    "C90_csp",
    "C90_topo_sort",
    "C90_build",
    "C90_cycle_refuted",
    "C90_cycle_count",
    "C90_csp_every",
    "C90_cycle_every"
   ],
   "note": "REFUTED for gc-cycle, which prints one of several shortest cycles, and rotations, in hash order. Proved for the others with every option, and for gc-cycle when some vertex has no entering edge or all vertices reach each other: then counts and girth agree, listings are permutations of each other, and shortest and longest cycles have the same length."
  },
  {
   "property": "C91",
   "status": "partial",
   "theorems": [
    "C91_halts_iff",
    "C91_contradiction_refuted"
   ],
   "note": "REFUTED: --include 2 --exclude 2 makes the program search for ever on a graph with a loop. Proved: the program ends iff some path meets the options or the walks allowed by the forbidding options (exclude, ordered, no-cycle, max and exact length, exact score) have bounded length."
  },
  {
   "property": "C92",
   "status": "partial",
   "theorems": [
    "C92_partial_exact",
    "C92_combined_refuted"
   ],
   "note": "REFUTED for combined constraints: And(MinLength 3, MaxLength 2) is never pruned. Proved, as an equivalence, for every constraint the programs build."
  },
  {
   "property": "C93",
   "status": "proved",
   "theorems": [
    "C93_edges_in_order"
   ],
   "note": ""
  },
  {
   "property": "C94",
   "status": "proved",
   "theorems": [
    "C94_lock_released"
   ],
   "note": ""
  },
  {
   "property": "C95",
   "status": "proved",
   "theorems": [
    "C95_crash_histories",
    "C97_small_one_write"
   ],
   "note": "gc-build is not interrupted (C28, C99). Each killed addition or removal makes at most one write; C97_small_one_write shows that requests of up to 8192 bytes do. C98 shows that larger ones break the property."
  },
  {
   "property": "C96",
   "status": "proved",
   "theorems": [
    "C96_killed_addition"
   ],
   "note": "The buffered writer of the Rust standard library is modelled exactly, for every capacity. A write call to a regular file is taken as one atomic step; a crash inside a write is C27."
  },
  {
   "property": "C97",
   "status": "proved",
   "theorems": [
    "C97_small_one_write",
    "C97_killed_small",
    "C97_concurrent_small"
   ],
   "note": "The text of a command is ASCII, so characters are bytes."
  },
  {
   "property": "C98",
   "status": "partial",
   "theorems": [
    "C98_next_addition_refuted",
    "C98_concurrent_refuted",
    "C96_killed_addition",
    "C26_no_byte_lost"
   ],
   "note": "REFUTED: a request of 483 vertices whose first 8192 bytes end right before a line feed; the next addition is glued to that line and the graph can no longer be loaded, after a kill and, without any kill, under concurrency. Proved: the kill itself leaves a readable graph (C96), and no byte is lost (C26)."
  },
  {
   "property": "C99",
   "status": "proved",
   "theorems": [
    "C99_killed_build"
   ],
   "note": ""
  },
  {
   "property": "C100",
   "status": "proved",
   "theorems": [
    "C100_decoding",
    "C100_reading",
    "C100_accepted",
    "C100_programs"
   ],
   "note": "UTF-8 as in RFC 3629, shortest forms, no surrogates."
  },
  {
   "property": "C101",
   "status": "partial",
   "theorems": [
    "C101_undecodable_refuted",
    "C101_first_bad_line"
   ],
   "note": "REFUTED: the reader panics (line.unwrap()), even if the bad byte is in a comment. Proved: no such file is accepted; the lines before the first bad one decide whether an error, a panic or the panic of the bad line is seen."
  },
  {
   "property": "C102",
   "status": "proved",
   "theorems": [
    "C102_stays_decodable",
    "C102_ascii_bytes_are_text"
   ],
   "note": "For every set of running tools and every schedule, crashes included."
  },
  {
   "property": "C103",
   "status": "proved",
   "theorems": [
    "C103_release_agrees",
    "C103_release_correct"
   ],
   "note": ""
  },
  {
   "property": "C104",
   "status": "partial",
   "theorems": [
    "C104_release_score_refuted",
    "C104_release_score_word",
    "C104_release_spfa_ends"
   ],
   "note": "REFUTED: sums wrap around in an optimised build. Proved: the paths are walks, the scores their weights modulo 2^64, and SPFA ends."
  },
  {
   "property": "C105",
   "status": "partial",
   "theorems": [
    "C105_release_flow_refuted",
    "C105_any_capacities"
   ],
   "note": "REFUTED: a value of 2^64 is reported as 0 by an optimised build. Proved for all capacities: what both builds return and when the checked one panics."
  },
  {
   "property": "C106",
   "status": "partial",
   "theorems": [
    "C106_torn_reader_refuted",
    "C106_pieces",
    "C106_reader_atomic",
    "C106_alone"
   ],
   "note": "REFUTED when the file ends in a torn line: the reader hands the line on at the end of the file, reads on, and answers with a graph that was stored at no moment. Proved: reading gives the content of one moment, cut only where the file ended at an earlier moment; with whole lines and one write per request it is the graph of one moment."
  },
  {
   "property": "C107",
   "status": "partial",
   "theorems": [
    "C107_reader_beside_build_refuted",
    "C107_splice",
    "C107_unchanged_text"
   ],
   "note": "REFUTED: for the graph with vertices 10 and 2, a reader can answer with a graph that has vertex 1 while gc-build rewrites the file. Proved: every reader has read a beginning of the old text continued, at the same place, by the new text; if both texts are the same, a prefix of it. C106 covers readers beside additions and removals."
  },
  {
   "property": "C108",
   "status": "proved",
   "theorems": [
    "C108_a_star_checked",
    "C108_in_range",
    "C108_edge_count",
    "C108_a_star_release",
    "C108_constrained",
    "C108_constrained_edge_count"
   ],
   "note": "The cost and heuristic closures themselves are total functions; the sum is what may overflow."
  },
  {
   "property": "C109",
   "status": "partial",
   "theorems": [
    "C109_sum_of_valid_values_refuted",
    "C108_in_range"
   ],
   "note": "REFUTED: cost(p) + heuristic(p) is a plain i64 addition. Proved: the answer is exact if every sum is in range."
  },
  {
   "property": "C110",
   "status": "partial",
   "theorems": [
    "C110_killed_random",
    "C110_old_or_new_refuted"
   ],
   "note": "REFUTED: gc-random removes the old graph before it writes the new one. Proved: what a kill can leave."
  },
  {
   "property": "C111",
   "status": "proved",
   "theorems": [
    "C111_repair"
   ],
   "note": "Tools as in C102: gc-init, gc-add, gc-delete, gc-build, gc-clean, gc-random, any number of each."
  },
  {
   "property": "C112",
   "status": "partial",
   "theorems": [
    "C112_build_prints",
    "C112_done_iff_success",
    "C112_edge_line_refuted"
   ],
   "note": "REFUTED for the edge line on graphs with self-loops; the rest is proved."
  },
  {
   "property": "C113",
   "status": "partial",
   "theorems": [
    "C113_build_disk",
    "C113_killed",
    "C113_done_refuted"
   ],
   "note": "REFUTED: save returns Ok without flushing its BufWriter. Proved: what every sequence of answers of the operating system leads to."
  },
  {
   "property": "C114",
   "status": "partial",
   "theorems": [
    "C114_append_disk",
    "C114_gc_add",
    "C114_exit_status",
    "C114_success_refuted"
   ],
   "note": "REFUTED: gc-add ignores results, and add_commands returns Ok without flushing. Proved: what every sequence of answers leads to."
  },
  {
   "property": "C115",
   "status": "proved",
   "theorems": [
    "C115_names_suffice",
    "C115_concurrent_appends"
   ],
   "note": "Justifies the file model of the other properties, where a program acts on the file that has the name."
  },
  {
   "property": "C116",
   "status": "partial",
   "theorems": [
    "C116_new_graph_untouched",
    "C116_requests_cut_off",
    "C116_old_graph_returns_refuted",
    "C116_removed_is_reported"
   ],
   "note": "REFUTED for gc-build between its read and its write. Proved for every program that has opened the file for writing. Where the directory is removed before that, gc-random and gc-build report failure."
  },
  {
   "property": "C117",
   "status": "proved",
   "theorems": [
    "C117_within_longest_path",
    "C117_within_vertex_count"
   ],
   "note": "Complements C60 (the value is not always the maximum)."
  },
  {
   "property": "C118",
   "status": "proved",
   "theorems": [
    "C118_generated_graph",
    "C118_returns_iff"
   ],
   "note": ""
  },
  {
   "property": "C119",
   "status": "partial",
   "theorems": [
    "C119_build_beside_additions",
    "C119_readable_refuted"
   ],
   "note": "REFUTED with the file 'AddVertex 1' and the addition of vertex 2345: the rest '45' of its line makes the file unreadable, both reporting success. The exact three-way split is proved for every schedule."
  },
  {
   "property": "C120",
   "status": "partial",
   "theorems": [
    "C120_delete_disk",
    "C120_wrong_vertex_refuted",
    "C120_random_disk",
    "C120_random_success_refuted"
   ],
   "note": "REFUTED for both programs on a full disk; what they leave is characterised for every sequence of answers."
  },
  {
   "property": "C121",
   "status": "partial",
   "theorems": [
    "C121_random_program",
    "C121_random_ends_iff",
    "C121_connected_refuted",
    "C121_cycle_refuted",
    "C121_malformed_count_refuted"
   ],
   "note": "REFUTED: --connected and --cycle are never read, and a malformed --edge-count is ignored. What the program does with every command line is proved."
  },
  {
   "property": "C122",
   "status": "partial",
   "theorems": [
    "C122_build",
    "C122_clean",
    "C122_random",
    "C122_success",
    "C122_unchanged_refuted"
   ],
   "note": "REFUTED when 'Done.' cannot be printed. Where the program stops, and with which files, is proved for every line that fails."
  },
  {
   "property": "C123",
   "status": "partial",
   "theorems": [
    "C123_same_runs",
    "C123_killed_clean",
    "C123_all_or_nothing_refuted",
    "C123_killed_random",
    "C123_repair"
   ],
   "note": "REFUTED: an empty graph directory can be left. That it is the only other outcome, and how to repair it, is proved."
  },
  {
   "property": "C124",
   "status": "partial",
   "theorems": [
    "C124_clean_beside",
    "C124_failure_refuted"
   ],
   "note": "REFUTED beside gc-add and beside gc-init. What holds in every interleaving with additions, removals, reads and other gc-cleans is proved."
  },
  {
   "property": "C125",
   "status": "proved",
   "theorems": [
    "C125_maximum_iff",
    "C125_maximum_fan_out",
    "C125_maximum_fan_in"
   ],
   "note": "The value is the maximum iff no pushing path is left; two classes of graphs where this always holds."
  },
  {
   "property": "C126",
   "status": "partial",
   "theorems": [
    "C126_gap",
    "C126_constant_factor_refuted"
   ],
   "note": "REFUTED for every factor, by a family of unit-capacity graphs. C117 gives the factor that does hold (longest path, hence vertices - 1)."
  },
  {
   "property": "C127",
   "status": "proved",
   "theorems": [
    "C127_traversals",
    "C127_a_star",
    "C127_topological_sort"
   ],
   "note": "One step is one call of next (one popped node), or one round of the sort; the cost of a single step (scanning a vertex's edges, copying a path) is not counted."
  },
  {
   "property": "C128",
   "status": "partial",
   "theorems": [
    "C128_max_flow",
    "C128_constrained",
    "C128_no_cycle",
    "C128_polynomial_refuted"
   ],
   "note": "REFUTED by the ladder graphs. The three general theorems give the lower bound on every graph: the number of paths the search could look at."
  },
  {
   "property": "C129",
   "status": "partial",
   "theorems": [
    "C129_simple_paths",
    "C129_exponential",
    "C129_bellman_ford_bound_refuted"
   ],
   "note": "REFUTED by layered acyclic graphs whose queue holds the ruler sequence, doubled at each layer (64-bit scores stop the family at k = 50 here). The bound that holds on every graph is one turn per simple path from the start."
  },
  {
   "property": "C130",
   "status": "proved",
   "theorems": [
    "C130_dag_agrees",
    "C130_longest_agrees"
   ],
   "note": "Stated for runs that return a table; C53 to C55 say when they do."
  },
  {
   "property": "C131",
   "status": "partial",
   "theorems": [
    "C131_same_graph",
    "C131_same_history",
    "C131_flow_within",
    "C131_panic_by_hash_refuted",
    "C131_flow_by_order_refuted"
   ],
   "note": "REFUTED for panics of dag_shortest_paths and for the value of max_flow; proved for all scores, and for spfa and max_flow over hash orders of one history."
  },
  {
   "property": "C132",
   "status": "partial",
   "theorems": [
    "C132_raised",
    "C132_monotone_refuted"
   ],
   "note": "REFUTED on a graph of eight vertices. C132_raised is what remains true."
  },
  {
   "property": "C133",
   "status": "partial",
   "theorems": [
    "C133_same_cost",
    "C133_no_path",
    "C133_more_demands",
    "C133_agree_refuted"
   ],
   "note": "REFUTED when there is no path and a cycle can be reached: gc-csp runs for ever. C133_no_path gives the exact condition."
  },
  {
   "property": "C134",
   "status": "partial",
   "theorems": [
    "C134_agree",
    "C134_agree_refuted",
    "C134_exact"
   ],
   "note": "REFUTED both ways; C134_agree holds on loop-free graphs, the converse where gc-cycle looks everywhere (C87). C134_exact: for every graph, exactly when each of the combinations of answers is given."
  },
  {
   "property": "C135",
   "status": "proved",
   "theorems": [
    "C135_agree"
   ],
   "note": "The empty graph included: no path, no cycle."
  },
  {
   "property": "C136",
   "status": "proved",
   "theorems": [
    "C136_last_decides",
    "C136_exchange_iff",
    "C136_reorder",
    "C136_additions"
   ],
   "note": "Same vertices and edges; the order of listings and so graph equality may differ (C09, C93)."
  },
  {
   "property": "C137",
   "status": "partial",
   "theorems": [
    "C137_undo_iff",
    "C137_exchange_iff",
    "C137_undo_refuted"
   ],
   "note": "REFUTED in two ways. The two iffs are exact for every stored graph and every options of both programs."
  },
  {
   "property": "C138",
   "status": "partial",
   "theorems": [
    "C138_built_lines",
    "C138_built_size",
    "C138_at_most_three",
    "C138_shorter_refuted"
   ],
   "note": "REFUTED: 12 bytes become 36. What holds is a bound of three lines per command and a size that the graph alone determines."
  },
  {
   "property": "C139",
   "status": "partial",
   "theorems": [
    "C139_short_path",
    "C139_topo",
    "C139_cycles",
    "C139_hamiltonian",
    "C139_girth_refuted",
    "C139_desc"
   ],
   "note": "REFUTED for gc-cycle on graphs with a part it does not look at (C87)."
  },
  {
   "property": "C140",
   "status": "proved",
   "theorems": [
    "C140_distances"
   ],
   "note": "Costs are numbers of edges; C108 and C109 treat sums that overflow."
  },
  {
   "property": "C141",
   "status": "partial",
   "theorems": [
    "C141_success_lost_refuted",
    "C141_kept",
    "C141_periods",
    "C141_faded",
    "C141_faded_written",
    "C141_comment_refuted"
   ],
   "note": "REFUTED: nothing is synced. What is kept is exact for a disk that stores effects in order, and for files whose lost characters read as zeros."
  },
  {
   "property": "C142",
   "status": "partial",
   "theorems": [
    "C142_graph",
    "C142_traversals",
    "C142_searches",
    "C142_short_path",
    "C142_topo",
    "C142_csp",
    "C142_cycle",
    "C142_edge_option_refuted",
    "C142_desc"
   ],
   "note": "REFUTED for the edge options of gc-cycle (C70). C142_cycle is stated for graphs with a source and for strongly connected ones, since otherwise gc-cycle starts at the first vertex of the hash table (C87); the cycles themselves are printed from another vertex on."
  },
  {
   "property": "C143",
   "status": "proved",
   "theorems": [
    "C143_accepted_iff",
    "C143_meaning",
    "C143_other_lines"
   ],
   "note": "For the model of clap's parser in Clap.v and the eleven programs; the help texts are in ClapManual.v."
  },
  {
   "property": "C144",
   "status": "proved",
   "theorems": [
    "C144_order",
    "C144_programs"
   ],
   "note": "C144_programs: all programs ask only for declared options, as C144_order needs."
  },
  {
   "property": "C145",
   "status": "partial",
   "theorems": [
    "C145_one_action",
    "C145_edge_options_inert",
    "C145_two_values_refuted"
   ],
   "note": "REFUTED: the edge options have no effect from the command line, and the vertex options take one vertex. C70 and C142_edge_option_refuted speak of the code behind them."
  },
  {
   "property": "C146",
   "status": "partial",
   "theorems": [
    "C146_dash_words",
    "C146_negative_refuted",
    "C146_equals"
   ],
   "note": "REFUTED for values in a word of their own; C146_equals is the way that works."
  },
  {
   "property": "C147",
   "status": "proved",
   "theorems": [
    "C147_enough_values",
    "C147_add_line",
    "C147_one_option",
    "C147_quick_start"
   ],
   "note": "Ids as in C71."
  },
  {
   "property": "C148",
   "status": "proved",
   "theorems": [
    "C148_directory",
    "C148_required",
    "C148_short_path_line",
    "C148_clean_line",
    "C148_random_line"
   ],
   "note": "The theorems about the programs (C80 to C91, C121) speak of what runs there."
  },
  {
   "property": "C149",
   "status": "partial",
   "theorems": [
    "C149_verbose_refuted"
   ],
   "note": "REFUTED on every accepted line: default values count as present in clap 2.33.0."
  },
  {
   "property": "C150",
   "status": "partial",
   "theorems": [
    "C150_small",
    "C150_places",
    "C150_lost_refuted",
    "C150_mixed_refuted",
    "C150_zeros_refuted"
   ],
   "note": "REFUTED in three ways. C150_small and C150_places say what is left of the file in every schedule."
  },
  {
   "property": "C151",
   "status": "partial",
   "theorems": [
    "C151_comments",
    "C151_insert",
    "C151_line_ends",
    "C151_crlf",
    "C151_tgf_blanks",
    "C151_bom_refuted",
    "C151_blanks_refuted",
    "C151_crlf_twice_refuted"
   ],
   "note": "REFUTED for a byte order mark, for blanks around gcmd commands and for carriage returns doubled by a second conversion; proved for the other edits."
  },
  {
   "property": "C152",
   "status": "proved",
   "theorems": [
    "C152_iterators",
    "C152_searches",
    "C152_away",
    "C152_programs",
    "C152_added_elsewhere",
    "C152_repeatable",
    "C152_max_flow",
    "C152_max_flow_away"
   ],
   "note": "C152_searches includes the versions with checked and wrapping scores, and SPFA."
  },
  {
   "property": "C153",
   "status": "partial",
   "theorems": [
    "C153_graph",
    "C153_reverse_flag",
    "C153_short_path",
    "C153_request",
    "C153_csp",
    "C153_topo",
    "C153_topo_exact",
    "C153_cycle",
    "C153_topo_refuted",
    "C153_cycle_refuted",
    "C153_desc"
   ],
   "note": "REFUTED for gc-topo-sort with self-loops (C88; C153_topo_exact says exactly when both graphs are ordered) and for gc-cycle (C87) outside graphs that are strongly connected or have each vertex between a vertex without incoming and one without outgoing edges, where every question is answered alike (C153_cycle); the rest is proved for every graph."
  },
  {
   "property": "C154",
   "status": "partial",
   "theorems": [
    "C154_saved",
    "C154_build",
    "C154_histories",
    "C154_any_builds",
    "C154_incoming_refuted"
   ],
   "note": "REFUTED for the order of the incoming edges, which follows the hash order; proved for outgoing edges and everything printed from them."
  },
  {
   "property": "C155",
   "status": "partial",
   "theorems": [
    "C155_csp",
    "C155_csp_effect",
    "C155_cycle",
    "C155_cycle_effect",
    "C155_more",
    "C155_ignored",
    "C155_max_score_refuted",
    "C155_not_rejected_refuted"
   ],
   "note": "REFUTED: a smaller --max-score can find a path where a larger one finds none; lines with --girth or --hamiltonian and constraints are accepted, and the constraints are ignored. The comparison is proved for every pair of command lines of which one accepts all that the other one accepts, and for requests that ask for more without --max-score."
  },
  {
   "property": "C156",
   "status": "partial",
   "theorems": [
    "C156_rewriting",
    "C156_meaning",
    "C156_validate",
    "C156_csp",
    "C156_cycle",
    "C156_ending_refuted"
   ],
   "note": "REFUTED for the end of the search: lists with the same meaning may end on one side and run for ever on the other when there is no path. The rest is proved."
  },
  {
   "property": "C157",
   "status": "partial",
   "theorems": [
    "C157_grows",
    "C157_reads",
    "C157_open_line_refuted"
   ],
   "note": "REFUTED for what a file without a last line end says; that the text itself only grows is proved for every file, the rest for files that end with a line end, as all files written by the programs do."
  },
  {
   "property": "C158",
   "status": "proved",
   "theorems": [
    "C158_session",
    "C158_short_path",
    "C158_csp",
    "C158_cycle",
    "C158_topo_sort",
    "C158_desc"
   ],
   "note": "gc-random with fewer than 2^64 / 3 vertices (more: C121). Lines run one after the other (concurrent runs: C22, C159 and others). The answers of gc-csp, gc-cycle and gc-topo-sort are described for every option and every graph, as in C160 and C88_exact."
  },
  {
   "property": "C159",
   "status": "partial",
   "theorems": [
    "C159_linearizable",
    "C159_real_time",
    "C159_small",
    "C159_status_refuted",
    "C159_large_refuted"
   ],
   "note": "REFUTED for requests that take several writes (over 8192 bytes) and for the meaning of a failed status; proved for all others. One call of an update is one option of gc-add or gc-delete; readers read the file in one step or by any number of read calls."
  },
  {
   "property": "C160",
   "status": "proved",
   "theorems": [
    "C160_understood",
    "C160_csp",
    "C160_cycle",
    "C160_halts",
    "C160_usual"
   ],
   "note": "Removes the restrictions of C85, C87 and C91 (no --max-score, no repetition in --ordered, well-formed values). That --max-score does not bound the score from above is C36."
  },
  {
   "property": "C161",
   "status": "proved",
   "theorems": [
    "C161_after_init",
    "C161_reported"
   ],
   "note": "Updates are single calls of at most one write (8192 bytes, C159_small); larger ones: C159_large_refuted. gc-init is taken call by call."
  },
  {
   "property": "C162",
   "status": "proved",
   "theorems": [
    "C162_wait_free",
    "C162_effort",
    "C162_ends",
    "C162_goes_on",
    "C162_everybody",
    "C162_all_stored",
    "C162_outrun"
   ],
   "note": "Steps are file operations, as in C159, and the begin and end of a call. C162_all_stored is for updates of one write; for larger ones see C26 and C98."
  },
  {
   "property": "C163",
   "status": "proved",
   "theorems": [
    "C163_paths_filled"
   ],
   "note": ""
  },
  {
   "property": "C164",
   "status": "proved",
   "theorems": [
    "C164_cycles_in_order",
    "C164_program",
    "C164_repeatable"
   ],
   "note": "The case without this condition is C90_cycle_refuted."
  },
  {
   "property": "C165",
   "status": "proved",
   "theorems": [
    "C165_which_order",
    "C165_one_order",
    "C165_program",
    "C165_repeatable"
   ],
   "note": ""
  },
  {
   "property": "C166",
   "status": "proved",
   "theorems": [
    "C166_bellman_ford",
    "C166_spfa",
    "C166_dag"
   ],
   "note": ""
  },
  {
   "property": "C167",
   "status": "proved",
   "theorems": [
    "C167_error_text",
    "C167_no_text"
   ],
   "note": ""
  },
  {
   "property": "C168",
   "status": "proved",
   "theorems": [
    "C168_last_first",
    "C168_order_matters",
    "C168_written_down"
   ],
   "note": ""
  },
  {
   "property": "C169",
   "status": "partial",
   "theorems": [
    "C169_short_path",
    "C169_still_unreachable",
    "C169_csp",
    "C169_bellman_ford",
    "C169_same_path_refuted"
   ],
   "note": "REFUTED: that the same path is printed; an edge from the start that the path does not use, deleted, moves the answer to another path of the same cost. Proved: everything else."
  },
  {
   "property": "C170",
   "status": "partial",
   "theorems": [
    "C170_faulty_line",
    "C170_programs",
    "C170_exit_status",
    "C170_queries",
    "C170_path",
    "C170_bad_id",
    "C170_no_line_refuted",
    "C170_which_id_refuted",
    "C170_which_end_refuted"
   ],
   "note": "REFUTED: that a line with an id beyond u64 is named, and that a bad id of the command line (or its option) is named. Proved: the number of a malformed line, and that there is a message exactly when the status is a failure (for queries: a message means the program panics)."
  },
  {
   "property": "C171",
   "status": "partial",
   "theorems": [
    "C171_additions",
    "C171_tgf",
    "C171_saved",
    "C171_unclosed_gcmd",
    "C171_removals_refuted",
    "C171_unclosed_tgf_refuted"
   ],
   "note": "REFUTED: for gcmd files with removals, and for tgf files where the first does not end with a line feed. Proved: everything else."
  },
  {
   "property": "C172",
   "status": "proved",
   "theorems": [
    "C172_reader",
    "C172_nothing_first",
    "C172_desc",
    "C172_read_only",
    "C172_csp_at_work",
    "C172_first_cycles"
   ],
   "note": "gc-topo-sort writes its line in pieces; the model has one line. What the other tools do when they cannot print is in C112, C122 and C123."
  },
  {
   "property": "C173",
   "status": "partial",
   "theorems": [
    "C173_request",
    "C173_init",
    "C173_build",
    "C173_histories",
    "C173_clean",
    "C173_read_only",
    "C173_queries",
    "C173_init_half",
    "C173_delete",
    "C173_add",
    "C173_add_silent",
    "C173_add_refuted",
    "C173_random",
    "C173_random_refuted",
    "C173_error_refuted"
   ],
   "note": "REFUTED: that gc-add reports refused calls, that an error means that nothing was stored, that a failing gc-random keeps the graph. Proved: everything else. Refused write calls are in C113, C114 and C120."
  },
  {
   "property": "C174",
   "status": "partial",
   "theorems": [
    "C174_run",
    "C174_crash",
    "C174_elsewhere",
    "C174_apart",
    "C174_schedules",
    "C174_histories",
    "C174_lock_taken_refuted",
    "C174_clean_inside_refuted",
    "C174_file_in_the_way"
   ],
   "note": "REFUTED: that graphs in any two different directories are independent (one may lie in the lock or in the graph directory of the other). Proved: everything else; the four paths of Store.v are derived here from a tree of files."
  },
  {
   "property": "C175",
   "status": "proved",
   "theorems": [
    "C175_files",
    "C175_calls",
    "C175_spellings",
    "C175_written",
    "C175_same_graph"
   ],
   "note": "Path::join, Path::parent and the reading of a path by a Unix system are modelled for texts without .. and without links."
  },
  {
   "property": "C176",
   "status": "proved",
   "theorems": [
    "C176_request",
    "C176_histories",
    "C176_build",
    "C176_parts",
    "C176_reported",
    "C176_grows",
    "C176_repair"
   ],
   "note": "Grants of Refuse.v and write answers of Disk.v together; for gc-add and gc-delete they may differ from request to request."
  },
  {
   "property": "C177",
   "status": "partial",
   "theorems": [
    "C177_uses",
    "C177_guarded_calls_refuted",
    "C177_guarded_writes",
    "C177_one"
   ],
   "note": "REFUTED: the inner call removes the lock file, so that the outer with_lock reports a failure although everything was stored. Proved: exactly what any nesting stores and reports; with_lock around gcmd::add_commands works; the calls for one item are those for a list of one."
  },
  {
   "property": "C178",
   "status": "partial",
   "theorems": [
    "C178_alone",
    "C178_true_is_held",
    "C178_false_is_free_refuted",
    "C178_ask_first_refuted",
    "C178_killed_refuted",
    "C178_directory"
   ],
   "note": "REFUTED: false does not mean free, asking first does not exclude anybody, and a killed process leaves true behind. Proved: right for a process that is alone; true means held in every interleaving without kills; exactly what happens after a kill."
  },
  {
   "property": "C179",
   "status": "partial",
   "theorems": [
    "C179_traversals",
    "C179_a_star",
    "C179_depth_first_paths",
    "C179_cycles",
    "C179_breadth_first_paths_refuted"
   ],
   "note": "REFUTED for the breadth-first enumeration of paths, proved for the others. An entry is a vertex or a path; paths are at most V + 1 long."
  },
  {
   "property": "C180",
   "status": "proved",
   "theorems": [
    "C180_answers",
    "C180_found",
    "C180_bounded",
    "C180_first",
    "C180_more",
    "C180_simple",
    "C180_best_first_one"
   ],
   "note": "k_cheapest is a specification of its own; scores are mathematical integers here (C108 for overflow)."
  },
  {
   "property": "C181",
   "status": "partial",
   "theorems": [
    "C181_same",
    "C181_killed",
    "C181_everybody",
    "C181_plain",
    "C181_link",
    "C181_up",
    "C181_clean_refuted",
    "C181_missing"
   ],
   "note": "REFUTED: with --path .graph/.. gc-clean removes the graph but then does not find its lock: it fails and leaves the lock (C181_clean_refuted); missing/.. is not found by queries but accepted by gc-init (C181_missing). Proved: every path that leads to the directory otherwise is as good as its plain name. Links are fixed and not called lock, .graph or commands there."
  },
  {
   "property": "C182",
   "status": "partial",
   "theorems": [
    "C182_orders",
    "C182_sets",
    "C182_sort_dedup",
    "C182_scored",
    "C182_scored_refuted",
    "C182_scored_sets",
    "C182_scored_dedup_refuted",
    "C182_rotations_refuted",
    "C182_canonical_sets"
   ],
   "note": "REFUTED for scored paths: cmp is Equal for different paths of the same score, against the contract of Ord. Exactly what an ordered set of them keeps is proved; ids, edges and cycles are proved. BTreeSet, sort and dedup are specified from the standard library."
  },
  {
   "property": "C183",
   "status": "proved",
   "theorems": [
    "C183_chain",
    "C183_any_route",
    "C183_line",
    "C183_confused",
    "C183_both",
    "C183_saved"
   ],
   "note": "Labels of tgf files are not part of the graph and are lost (C20). The order of incoming edges is not kept (C154_incoming_refuted)."
  },
  {
   "property": "C184",
   "status": "partial",
   "theorems": [
    "C184_read",
    "C184_graph",
    "C184_save",
    "C184_ok_refuted",
    "C184_invented_refuted"
   ],
   "note": "REFUTED: save drops its buffer without a flush, so that on a full disk it returns Ok with an empty file; a cut file is never noticed, and a cut id is read as another id. The exact content, and how much can be wrong, are proved."
  },
  {
   "property": "C185",
   "status": "partial",
   "theorems": [
    "C185_again",
    "C185_any_order",
    "C185_gc_add",
    "C185_gc_delete",
    "C185_killed_refuted",
    "C185_late_refuted"
   ],
   "note": "REFUTED: repeating a request of more than 8192 bytes that was killed half-way makes the graph unreadable; repeating an addition after a removal by somebody else adds it again. Proved for refusals of any kind, and for kills of requests that are written with one call."
  },
  {
   "property": "C186",
   "status": "partial",
   "theorems": [
    "C186_dag",
    "C186_any_graph",
    "C186_even",
    "C186_flow",
    "C186_a_star",
    "C186_order_only",
    "C186_largest_refuted"
   ],
   "note": "REFUTED: for a factor that divides i64::MAX, spfa loses a vertex whose score becomes i64::MAX. Proved for every other factor (all even ones among them), and for every factor in acyclic graphs, for flows, for A* and for the constrained search; a build with overflow checks."
  },
  {
   "property": "C187",
   "status": "proved",
   "theorems": [
    "C187_any_schedule",
    "C187_some_killed",
    "C187_two_schedules",
    "C187_same_kind",
    "C187_schedule_decides"
   ],
   "note": "Each request reaches the file in at most one write (larger ones may be torn, see C26)."
  },
  {
   "property": "C188",
   "status": "proved",
   "theorems": [
    "C188_add_edge",
    "C188_programs",
    "C188_forward",
    "C188_delete"
   ],
   "note": "Self-loops are excluded for additions (with them the sort may succeed on a graph with a cycle, see C52); removals are covered with self-loops too."
  },
  {
   "property": "C189",
   "status": "proved",
   "theorems": [
    "C189_adds",
    "C189_deletes",
    "C189_runs",
    "C189_runs_away",
    "C189_order"
   ],
   "note": "Additions among themselves and removals among themselves; where the two are mixed the order counts, see C136 and C137."
  },
  {
   "property": "C190",
   "status": "proved",
   "theorems": [
    "C190_each_in_order",
    "C190_any_moment",
    "C190_any_schedule",
    "C190_no_lock_left",
    "C190_ends",
    "C190_gc_add",
    "C190_gc_add_meanwhile",
    "C190_gc_delete",
    "C190_gc_delete_meanwhile",
    "C190_both"
   ],
   "note": "For requests that are written with one call each (C97: up to 8192 bytes); with more than one write lines can mix, see C26_mixed_lines_refuted."
  }
 ]
}