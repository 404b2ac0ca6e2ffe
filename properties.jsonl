{"id": "C01", "title": "Graph behaves as a pair of sets", "statement": "After any history of add_vertex, remove_vertex, add_edge and remove_edge starting from an empty DirectedGraph, contains_vertex and contains_edge answer exactly as a plain pair (set of vertices, set of edges) updated by the same history would: add_edge also adds both endpoints, remove_vertex also removes exactly the incident edges, remove_edge keeps the endpoints, and nothing else changes.", "quantifier": "every finite history of mutations, every vertex id, every hash iteration order in between", "why_tests_cant": "histories are unbounded and every interleaving of the four mutations with aliasing endpoints (self-loops, repeated edges) must agree", "anchors": ["core/src/directed_graph.rs: DirectedGraph::add_vertex/remove_vertex/add_edge/remove_edge/contains_vertex/contains_edge"]}
{"id": "C02", "title": "Listing queries agree with membership queries", "statement": "For every graph built through the API, vertices() lists every contained vertex exactly once, edges() lists every contained edge exactly once, outbound_edges(v)/inbound_edges(v) list exactly the contained edges leaving/entering v exactly once (nothing for an unknown v), degree_out/degree_in are their counts, vertex_count() is the number of vertices, is_empty() holds iff there is no vertex, and both endpoints of every contained edge are contained vertices.", "quantifier": "every reachable graph, every vertex, every hash iteration order", "why_tests_cant": "each edge is stored twice and must stay consistent in both places after every history", "anchors": ["core/src/directed_graph.rs: vertices/edges/outbound_edges/inbound_edges/degree_out/degree_in/vertex_count/is_empty"]}
{"id": "C03", "title": "edge_count is the number of edges", "statement": "For every graph built through the API, edge_count() equals the number of edges listed by edges().", "quantifier": "every reachable graph, including graphs with self-loops", "why_tests_cant": "a count derived from doubled storage is right on the sampled graphs but must be right for every number of self-loops", "anchors": ["core/src/directed_graph.rs: edge_count", "command/src/bin/gc-desc.rs: main", "command/src/bin/gc-build.rs: main"]}
{"id": "C04", "title": "edge_count exact law", "statement": "For every graph built through the API, edge_count() equals (number of non-loop edges) + floor(number of self-loops / 2); in particular it is the number of edges whenever the graph has no self-loop.", "quantifier": "every reachable graph", "why_tests_cant": "quantifies over all graphs", "anchors": ["core/src/directed_graph.rs: edge_count"]}
{"id": "C05", "title": "Return values of the mutators", "statement": "For every reachable graph: add_vertex(v) returns true iff v was already contained; add_edge(e) returns true iff e was not contained; remove_vertex(v) returns true iff v was contained.", "quantifier": "every reachable graph and argument", "why_tests_cant": "must hold in every state", "anchors": ["core/src/directed_graph.rs: add_vertex/add_edge/remove_vertex"]}
{"id": "C06", "title": "remove_edge reports whether it removed something", "statement": "remove_edge(e) returns true iff e was contained in the graph.", "quantifier": "every reachable graph and edge", "why_tests_cant": "must hold in every state", "anchors": ["core/src/directed_graph.rs: remove_edge"]}
{"id": "C07", "title": "Mutations are idempotent", "statement": "Applying the same add_vertex, add_edge, remove_vertex or remove_edge twice in a row is observationally the same as applying it once, and adding something already present or removing something absent leaves the stored structure unchanged.", "quantifier": "every reachable graph and argument", "why_tests_cant": "must hold in every state, tests check three graphs", "anchors": ["core/src/directed_graph.rs: add_vertex/add_edge/remove_vertex/remove_edge"]}
{"id": "C08", "title": "Graph operations never panic", "statement": "No DirectedGraph query or mutation hits one of its internal unwrap() calls, for any graph value whatsoever.", "quantifier": "every graph value, every argument", "why_tests_cant": "absence of a panic cannot be sampled", "anchors": ["core/src/directed_graph.rs: contains_edge, add_edge (unwrap)"]}
{"id": "C09", "title": "Graph equality is extensional", "statement": "Two graphs built through the API that contain the same vertices and the same edges compare equal with ==.", "quantifier": "every pair of histories producing the same sets", "why_tests_cant": "ranges over pairs of histories", "anchors": ["core/src/directed_graph.rs: derive(PartialEq) for DirectedGraph"]}
{"id": "C10", "title": "as_commands / apply_commands round-trip", "statement": "For every reachable graph g, applying as_commands(g) to an empty graph yields a graph with exactly the vertices and edges of g (isolated vertices and self-loops included).", "quantifier": "every reachable graph, every hash order", "why_tests_cant": "quantifies over all graphs", "anchors": ["core/src/graph_command.rs: GraphCommand::as_commands/apply_commands/apply_to"]}
{"id": "C11", "title": "revert is an involution and undoes effective commands", "statement": "revert(revert(c)) = c for every command. If c is AddVertex of an absent vertex, AddEdge of an absent edge between present vertices, RemoveEdge of a present edge, or RemoveVertex of a present vertex without incident edges, then applying c and then revert(c) restores the contained vertices and edges.", "quantifier": "every reachable graph and every command meeting the stated condition", "why_tests_cant": "ranges over all states", "anchors": ["core/src/graph_command.rs: GraphCommand::revert/apply_to"]}
{"id": "C12", "title": "revert undoes every command", "statement": "For every graph and command, applying c and then revert(c) restores the contained vertices and edges.", "quantifier": "every reachable graph and every command", "why_tests_cant": "ranges over all states", "anchors": ["core/src/graph_command.rs: GraphCommand::revert"]}
{"id": "C13", "title": "gcmd line round-trip", "statement": "For every graph command with u64 ids, the line the gcmd writer produces is parsed back by the gcmd reader to that same command, is not empty, is not taken for a comment and contains no line break.", "quantifier": "every command, every id in 0..2^64-1", "why_tests_cant": "2^64 ids (pairs of them) per command kind", "anchors": ["core/src/format/gcmd.rs: command_into_line/parse_line/is_comment"]}
{"id": "C14", "title": "gcmd parser accepts exactly its grammar", "statement": "The gcmd line parser returns a command c iff the line is literally 'AddVertex D', 'RemoveVertex D', 'AddEdge D W D' or 'RemoveEdge D W D' with D a non-empty run of decimal digits denoting at most 2^64-1 and W a non-empty run of whitespace, and c carries exactly those ids; it returns an error carrying the line iff the line has none of these shapes.", "quantifier": "every line of text, every Unicode digit table", "why_tests_cant": "unbounded strings", "anchors": ["core/src/format/gcmd.rs: parse_line"]}
{"id": "C15", "title": "Parsing never panics", "statement": "Parsing any line of text with the gcmd or tgf line parser returns a command or an error, never a panic.", "quantifier": "every line of text", "why_tests_cant": "unbounded strings; ids above u64::MAX and non-ASCII digits are easy to miss", "anchors": ["core/src/format/gcmd.rs: parse_line", "core/src/format/tgf.rs: parse_line"]}
{"id": "C16", "title": "File reader: order, comments, error line numbers", "statement": "Reading a command file skips exactly the empty lines and the lines whose first non-blank character is '#', returns the commands of all other lines in file order, and otherwise reports the error of the first (1-based) line that does not parse; blank lines made only of spaces are errors.", "quantifier": "every text file and every line parser", "why_tests_cant": "files are unbounded", "anchors": ["core/src/format/utils.rs: read_as_commands/read"]}
{"id": "C17", "title": "gcmd save/read round-trip", "statement": "For every reachable graph with u64 ids, reading the file written by gcmd::save yields a graph with exactly the same vertices and edges.", "quantifier": "every reachable graph, every hash order", "why_tests_cant": "all graphs and ids", "anchors": ["core/src/format/gcmd.rs: save/read"]}
{"id": "C18", "title": "Appending commands is replaying them", "statement": "If a commands file is empty or ends with a line break and reads as commands cs, then after add_commands(cs') it reads as cs followed by cs', and again ends with a line break.", "quantifier": "every file content and every command list", "why_tests_cant": "unbounded files", "anchors": ["core/src/format/gcmd.rs: add_commands/read_as_commands"]}
{"id": "C19", "title": "tgf save/read round-trip", "statement": "For every reachable graph with u64 ids, reading the file written by tgf::save yields a graph with exactly the same vertices and edges.", "quantifier": "every reachable graph, every hash order", "why_tests_cant": "all graphs and ids", "anchors": ["core/src/format/tgf.rs: save/read"]}
{"id": "C20", "title": "tgf labels are ignored", "statement": "A tgf line made of an id, white space and a label is read as that vertex; a line made of two ids and a label is read as that edge, whatever the label.", "quantifier": "every id and label", "why_tests_cant": "labels are arbitrary text", "anchors": ["core/src/format/tgf.rs: parse_line"]}
{"id": "C21", "title": "gc-init is idempotent and non-destructive", "statement": "After init, the graph directory loads as a graph; running init on a directory that already holds a commands file leaves its content byte-for-byte unchanged, and running it twice is the same as once.", "quantifier": "every directory state", "why_tests_cant": "every prior file content", "anchors": ["command/src/graph_utils.rs: init/touch"]}
{"id": "C22", "title": "Sequential command histories replay exactly", "statement": "After any sequence of complete init, add (vertices, edges), remove (vertices, edges) and build invocations on one directory, starting with init, load_graph succeeds and returns a graph with exactly the vertices and edges obtained by performing the same additions and removals on abstract sets.", "quantifier": "every finite sequence of invocations, every id, every hash order", "why_tests_cant": "unbounded histories through text files", "anchors": ["command/src/graph_utils.rs: add_vertices/add_edges/remove_vertices/remove_edges/load_graph/save_graph_as_commands", "command/src/bin/gc-build.rs: main"]}
{"id": "C23", "title": "gc-build preserves the graph", "statement": "If load_graph succeeds, then after gc-build load_graph succeeds and returns a graph with the same vertices and edges, and the file holds one AddVertex line per vertex followed by one AddEdge line per edge; if load_graph fails, gc-build changes nothing.", "quantifier": "every directory content", "why_tests_cant": "all files", "anchors": ["command/src/bin/gc-build.rs: main", "command/src/graph_utils.rs: save_graph_as_commands"]}
{"id": "C24", "title": "with_lock brackets the action", "statement": "A single process running with_lock creates the lock file, runs the action exactly once, removes the lock file whether the action succeeded or failed, and returns the action's result; a lock file left over by a crashed process does not block it.", "quantifier": "every action and directory state in which the lock file can be created and removed", "why_tests_cant": "all actions and states", "anchors": ["command/src/graph_utils.rs: with_lock/lock/unlock/touch"]}
{"id": "C25", "title": "The lock gives mutual exclusion", "statement": "Two processes running with_lock on the same directory are never both inside their protected action.", "quantifier": "every interleaving of two processes", "why_tests_cant": "schedules cannot be enumerated by tests", "anchors": ["command/src/graph_utils.rs: with_lock/lock/is_locked"]}
{"id": "C26", "title": "No update is lost under concurrency", "statement": "If one process runs gc-build while another runs gc-add to completion, the added vertices and edges are in the graph afterwards.", "quantifier": "every interleaving of the two processes' file operations", "why_tests_cant": "schedules cannot be enumerated by tests", "anchors": ["command/src/bin/gc-build.rs: main", "command/src/graph_utils.rs: save_graph_as_commands"]}
{"id": "C27", "title": "A crash during an append leaves a prefix of the commands", "statement": "If the process dies while appending commands, the file afterwards reads as the old commands followed by a prefix of the new ones.", "quantifier": "every crash point (byte) of every append", "why_tests_cant": "every byte offset of every append", "anchors": ["core/src/format/gcmd.rs: add_commands"]}
{"id": "C28", "title": "A crash during gc-build does not lose the graph", "statement": "If the process dies at any point during gc-build, the graph read afterwards is the old graph.", "quantifier": "every crash point of the rewrite", "why_tests_cant": "every byte offset", "anchors": ["core/src/format/gcmd.rs: save"]}
{"id": "C29", "title": "Attribute mappings behave as finite maps", "statement": "After any sequence of attribute commands, looking up a key gives the value of the last Add for it not followed by a Remove; vertex mappings ignore edge commands and vice versa (returning false and changing nothing); remove returns true iff the key was present; lookups with default give the default exactly for absent keys.", "quantifier": "every command sequence and key", "why_tests_cant": "unbounded histories", "anchors": ["core/src/attribute/mapping.rs: AttributeMapping", "core/src/attribute/attribute_command.rs: apply_vertex_command_to/apply_edge_command_to"]}
{"id": "C30", "title": "Path queries", "statement": "contains_cycle() is true iff some vertex occurs at two different positions; contains_edge(u,v) iff u is immediately followed by v somewhere; to_edge_list lists exactly the size-1 consecutive pairs in order; append adds one vertex at the end and keeps everything else.", "quantifier": "every path", "why_tests_cant": "all paths", "anchors": ["core/src/path.rs: Path"]}
{"id": "C31", "title": "Constraint meaning on complete paths", "statement": "check_complete decides the documented meaning of every constraint on every scored path, through any nesting of Or, Xor, And and Not.", "quantifier": "every constraint tree, every scored path", "why_tests_cant": "constraint trees are unbounded", "anchors": ["core/src/constraint/constraint.rs: Constraint::check_complete"]}
{"id": "C32", "title": "Partial checks never prune a viable prefix", "statement": "If check_partial rejects a scored path then no extension of that path with a score at least as large satisfies check_complete.", "quantifier": "every constraint tree, every path, every extension", "why_tests_cant": "all extensions of all paths", "anchors": ["core/src/constraint/constraint.rs: Constraint::check_partial"]}
{"id": "C33", "title": "Ordered-vertices constraint", "statement": "For a list of distinct vertices, the ordered constraint accepts a path iff no listed vertex occurs in the path before another listed vertex that comes earlier in the list. In a list that repeats a vertex only its last place counts, so that a path that visits the list exactly as written may be refused.", "quantifier": "every list and every path", "why_tests_cant": "all lists and paths", "anchors": ["core/src/constraint/constraint.rs: check_vertices_order"]}
{"id": "C34", "title": "validate rejects the documented contradictions", "statement": "validate rejects every list that includes and excludes the same vertex (directly or through an included edge), or the same edge, or cycles, or holds two min (or two max) length or score bounds, or a min above the corresponding max; every list it accepts is free of these contradictions.", "quantifier": "every constraint list", "why_tests_cant": "all lists", "anchors": ["core/src/constraint/checker.rs: validate"]}
{"id": "C35", "title": "validate accepts compatible lists", "statement": "validate returns Ok for every list of constraints that some path satisfies and that holds at most one of each kind of bound.", "quantifier": "every satisfiable constraint list", "why_tests_cant": "all lists", "anchors": ["core/src/constraint/checker.rs: validate/check_cycle_inclusion_exclusion"]}
{"id": "C36", "title": "--max-score bounds the score from above", "statement": "The constraint built for --max-score s accepts a scored path iff its score is at most s.", "quantifier": "every bound and scored path", "why_tests_cant": "all bounds", "anchors": ["command/src/arg_utils.rs: build_constraint_max_score"]}
{"id": "C37", "title": "Search queues", "statement": "For any sequence of pushes and pops, Stack is last-in-first-out, Queue is first-in-first-out, MaxPriorityQueue/MinPriorityQueue always pop a greatest/least remaining element, nothing is lost, invented or duplicated, and pop returns None exactly on an empty container.", "quantifier": "every operation sequence", "why_tests_cant": "unbounded sequences", "anchors": ["core/src/iter/iter_datastructure.rs: Stack/Queue/MaxPriorityQueue/MinPriorityQueue"]}
{"id": "C38", "title": "BFS visits exactly the reachable vertices, once", "statement": "bfs_iter_from(g, s) terminates and yields s first and every vertex reachable from s by directed edges, each exactly once, and nothing else; bfs_iter does so from some contained vertex and is empty on an empty graph.", "quantifier": "every reachable graph and start vertex", "why_tests_cant": "all graphs, cycles included", "anchors": ["core/src/iter/iter_breadth.rs: bfs_iter_from/bfs_iter"]}
{"id": "C39", "title": "BFS order is by distance", "statement": "In the sequence yielded by bfs_iter_from the distance from the start never decreases. Next comes always the vertex seen first among those not yet yielded, the neighbours of a vertex being seen in the order their edges were added, which determines the whole sequence.", "quantifier": "every reachable graph and start vertex", "why_tests_cant": "all graphs", "anchors": ["core/src/iter/iter_breadth.rs: BreadthFirstIter::next"]}
{"id": "C40", "title": "DFS visits exactly the reachable vertices, once", "statement": "dfs_iter_from(g, s) terminates and yields s first and every vertex reachable from s, each exactly once, and nothing else; dfs_iter does so from some contained vertex and is empty on an empty graph.", "quantifier": "every reachable graph and start vertex", "why_tests_cant": "all graphs", "anchors": ["core/src/iter/iter_depth.rs: dfs_iter_from, dfs_iter"]}
{"id": "C41", "title": "DFS order is a depth-first order", "statement": "In the sequence yielded by dfs_iter_from, each next vertex is an out-neighbour of the most recently yielded vertex that still has an unvisited out-neighbour.", "quantifier": "every reachable graph and start vertex", "why_tests_cant": "all graphs", "anchors": ["core/src/iter/iter_depth.rs: DepthFirstIter::next"]}
{"id": "C42", "title": "Path iterators enumerate all simple paths once", "statement": "dfs_iter_path_from(g, s) and bfs_path_iter_from(g, s) terminate and yield every path of g that starts at s and repeats no vertex, each exactly once, and nothing else; the breadth-first one in non-decreasing length. The order is determined by the order in which the edges were added: level by level, or each path followed by all that begin with it, from its last extension to its first.", "quantifier": "every reachable graph and start vertex", "why_tests_cant": "exponentially many paths, all graphs", "anchors": ["core/src/iter/iter_depth.rs: dfs_iter_path_from", "core/src/iter/iter_breadth.rs: bfs_path_iter_from"]}
{"id": "C43", "title": "Best-first iteration visits every reachable vertex once along a real path", "statement": "best_iter_from(g, f, s) terminates and yields, for each vertex reachable from s, exactly one simple path of g from s to it, together with the value of f on that path. Each path goes one edge beyond an earlier one, each vertex being approached from the first yielded vertex with an edge to it, and no such path has a lower score than the one that comes next; without equal scores this determines the whole sequence.", "quantifier": "every graph, score function, start and tie-breaking of the priority queue", "why_tests_cant": "all graphs and score functions", "anchors": ["core/src/iter/iter_best.rs: best_iter_from"]}
{"id": "C44", "title": "A* answers iff the target is reachable", "statement": "a_star::shortest_path returns None iff the end is not reachable from the start, and otherwise a path of the graph from start to end without repeated vertex, scored by g+h of that path.", "quantifier": "every graph, cost, heuristic, start, end and tie-breaking", "why_tests_cant": "all graphs and functions", "anchors": ["core/src/search/a_star.rs: shortest_path"]}
{"id": "C45", "title": "gc-short-path returns a path with the fewest edges", "statement": "With the unit edge cost and the zero heuristic, the returned path has as few edges as any path from start to end and its score is that number.", "quantifier": "every graph, start, end and tie-breaking", "why_tests_cant": "all graphs", "anchors": ["command/src/bin/gc-short-path.rs: shortest_path", "core/src/search/a_star.rs: shortest_path/one_weighted_edge/zero_heuristic"]}
{"id": "C46", "title": "A* is optimal for non-negative additive costs", "statement": "With an additive cost with non-negative edge weights and the zero heuristic, the path returned by a_star::shortest_path has minimal cost.", "quantifier": "every graph and non-negative weighting", "why_tests_cant": "all graphs and weightings", "anchors": ["core/src/search/a_star.rs: shortest_path", "core/src/iter/iter_best.rs: BestFirstIter::next"]}
{"id": "C47", "title": "Constrained search returns an optimal satisfying walk", "statement": "Whenever constrained_shortest_path returns a path, it is a walk of the graph from start to end satisfying every constraint, and, if the score never decreases along a walk, no walk from start to end satisfying every constraint has a smaller score. Whatever the score, it is the first to meet the constraints among the walks tried in order of their scores, each one edge beyond an earlier one and still able to meet each constraint.", "quantifier": "every graph, constraint list, monotone score and tie-breaking", "why_tests_cant": "all graphs, constraint lists and walks", "anchors": ["core/src/search/a_star.rs: constrained_shortest_path", "core/src/iter/iter_best_constraint.rs: ConstrainedBestFirstIter::next"]}
{"id": "C48", "title": "Constrained search finds a solution when there is one", "statement": "If some walk from start to end satisfies every constraint and every edge increases the score by at least one, constrained_shortest_path terminates and returns a path.", "quantifier": "every graph, constraint list, strictly increasing score and tie-breaking", "why_tests_cant": "all graphs and constraint lists", "anchors": ["core/src/search/a_star.rs: constrained_shortest_path"]}
{"id": "C49", "title": "Constrained search reports unsatisfiability", "statement": "If no walk from start to end satisfies the constraints, constrained_shortest_path terminates and returns None.", "quantifier": "every graph and constraint list", "why_tests_cant": "non-termination cannot be observed by a test", "anchors": ["core/src/search/a_star.rs: constrained_shortest_path", "command/src/bin/gc-csp.rs: shortest_path_with_constraints"]}
{"id": "C50", "title": "Bounded constrained search always terminates", "statement": "If the constraints include a maximum length or the no-cycle constraint, constrained_shortest_path terminates, and it returns None iff no walk from start to end satisfies the constraints (for a non-decreasing score).", "quantifier": "every graph and constraint list with such a bound", "why_tests_cant": "all graphs", "anchors": ["core/src/search/a_star.rs: constrained_shortest_path"]}
{"id": "C51", "title": "Topological sort is correct on loop-free graphs", "statement": "For every graph without self-loops, topological_sort terminates; it returns an order containing every vertex exactly once with every edge going forward iff the graph has no directed cycle, and None iff it has one; is_dag/try_dag answer accordingly.", "quantifier": "every loop-free reachable graph, every hash order", "why_tests_cant": "all graphs and cycles", "anchors": ["core/src/algorithm/topo_sort.rs: topological_sort/is_dag/try_dag"]}
{"id": "C52", "title": "Topological sort is correct on every graph", "statement": "topological_sort returns Some only for graphs without directed cycle (a self-loop is a cycle) and then lists every vertex.", "quantifier": "every reachable graph", "why_tests_cant": "all graphs", "anchors": ["core/src/algorithm/topo_sort.rs: topological_sort"]}
{"id": "C53", "title": "DAG shortest paths are shortest", "statement": "On a loop-free DAG, if dag_shortest_paths returns without panicking, the map has exactly the vertices reachable from the start, and maps each to a path of the graph from the start whose total weight is the stored score and is minimal among all paths to that vertex; dag_shortest_path looks the end up in that map.", "quantifier": "every loop-free DAG, weight function without i64 overflow, start", "why_tests_cant": "all DAGs and weights", "anchors": ["core/src/algorithm/shortest_path.rs: dag_shortest_paths/dag_shortest_path"]}
{"id": "C54", "title": "DAG shortest paths never panic", "statement": "dag_shortest_paths returns a map for every DAG, small weights and start vertex.", "quantifier": "every DAG and start", "why_tests_cant": "depends on the topological order chosen", "anchors": ["core/src/algorithm/shortest_path.rs: dag_shortest_paths (expect)"]}
{"id": "C55", "title": "DAG longest paths are longest", "statement": "On a loop-free DAG, if dag_longest_paths returns without panicking, it maps exactly the vertices reachable from the start, each to a path of the graph whose total weight is the stored score and is maximal.", "quantifier": "every loop-free DAG, weight function without i64 overflow, start", "why_tests_cant": "all DAGs and weights", "anchors": ["core/src/algorithm/longest_path.rs: dag_longest_paths/dag_longest_path"]}
{"id": "C56", "title": "Bellman-Ford is correct", "statement": "If weights are small enough that sums fit in i64, bellman_ford returns None iff a closed walk of negative weight is reachable from the start, and otherwise a map with exactly the vertices reachable from the start, each with a walk of the graph from the start whose weight is the stored score and is minimal among all walks.", "quantifier": "every reachable graph, bounded weight function, start, hash order", "why_tests_cant": "all graphs and weights, negative ones included", "anchors": ["core/src/algorithm/shortest_path.rs: bellman_ford"]}
{"id": "C57", "title": "SPFA is correct without negative cycles", "statement": "If weights are small enough that sums fit in i64 and no closed walk of negative weight is reachable from the start, spfa terminates and returns exactly the vertices reachable from the start with minimal-weight walks and their scores.", "quantifier": "every reachable graph, bounded weight function without negative cycle, start", "why_tests_cant": "all graphs and weights; termination", "anchors": ["core/src/algorithm/shortest_path.rs: spfa"]}
{"id": "C58", "title": "SPFA and Bellman-Ford agree", "statement": "Whenever bellman_ford returns a map (weights small), spfa terminates and gives the same score to the same vertices; and if a negative cycle is reachable spfa never gives an answer: with overflow checks it ends in a panic. For any weights at all it ends, with an answer or a panic.", "quantifier": "every reachable graph, bounded weight function, start", "why_tests_cant": "all graphs and weights", "anchors": ["core/src/algorithm/shortest_path.rs: bellman_ford/spfa"]}
{"id": "C59", "title": "max_flow returns a feasible flow", "statement": "For start different from end and capacities whose sum fits in u64, max_flow terminates without panic and returns a map holding exactly the edges with their capacities, flows between 0 and capacity, conservation at every vertex but start and end, a value equal to the net flow out of the start and into the end, and never above the capacity of any cut separating start from end.", "quantifier": "every reachable graph, capacity function, start and end", "why_tests_cant": "all graphs, capacities and cuts", "anchors": ["core/src/algorithm/max_flow.rs: max_flow"]}
{"id": "C60", "title": "max_flow is maximum", "statement": "No feasible flow from start to end has a larger value than the one max_flow returns.", "quantifier": "every reachable graph, capacity function, start and end", "why_tests_cant": "all graphs and flows", "anchors": ["core/src/algorithm/max_flow.rs: max_flow/AugmentingPathIter::next"]}
{"id": "C61", "title": "max_flow result is blocking", "statement": "In the flow returned by max_flow every directed path from start to end has a saturated edge.", "quantifier": "every reachable graph, capacity function, start and end", "why_tests_cant": "all graphs and paths", "anchors": ["core/src/algorithm/max_flow.rs: max_flow"]}
{"id": "C62", "title": "max_flow never panics", "statement": "max_flow returns for every graph, u64 capacities and pair of vertices.", "quantifier": "every graph, capacity function, start and end (equal ones included)", "why_tests_cant": "corner cases", "anchors": ["core/src/algorithm/max_flow.rs: residual_capacity/max_flow"]}
{"id": "C63", "title": "Hamiltonian path search is sound, complete and duplicate-free", "statement": "iter_hamiltonian_paths terminates and yields exactly the paths of the graph visiting every vertex exactly once, each once; first_path/is_hamiltonian answer whether one exists (the empty graph counts as Hamiltonian); The paths come vertex by vertex, in depth-first order. is_path_hamiltonian decides it for paths of the graph.", "quantifier": "every reachable graph and path, every hash order", "why_tests_cant": "all graphs", "anchors": ["core/src/algorithm/hamiltonian.rs: iter_hamiltonian_paths/first_path/is_hamiltonian/is_path_hamiltonian"]}
{"id": "C64", "title": "Canonical cycles identify cycles up to rotation", "statement": "For duplicate-free vertex lists, canonical() is a rotation of the cycle starting at its least vertex, is idempotent, is_canonical() holds iff the cycle equals its canonical form, two cycles have the same canonical form iff one is a rotation of the other, and from_vertices accepts exactly duplicate-free lists of at least two vertices.", "quantifier": "every duplicate-free vertex list", "why_tests_cant": "all cycles", "anchors": ["core/src/iter/iter_cycle.rs: Cycle::canonical/is_canonical/from_vertices"]}
{"id": "C65", "title": "Cycle iteration is sound, duplicate-free and terminates", "statement": "cycle_iter(g) terminates, and every cycle it yields is a duplicate-free list of vertices joined by edges of the graph back to its first vertex, in canonical form, no two equal (hence no two rotations of each other).", "quantifier": "every reachable graph, every hash order", "why_tests_cant": "all graphs", "anchors": ["core/src/iter/iter_cycle.rs: CycleIter::next/cycle_iter"]}
{"id": "C66", "title": "Cycle iteration is complete from its start vertices", "statement": "cycle_iter(g) yields the canonical form of every simple cycle that is reachable from a vertex without incoming edges, or, when every vertex has an incoming edge, from the first vertex in hash order; in particular all cycles of a strongly connected graph, and count/take/take_all agree with that set.", "quantifier": "every reachable graph and cycle, every hash order", "why_tests_cant": "all graphs", "anchors": ["core/src/iter/iter_cycle.rs: cycle_iter/find_starting_edges", "core/src/algorithm/cycle.rs: count/take/take_all"]}
{"id": "C67", "title": "Cycle iteration finds all cycles of a connected graph", "statement": "For every (weakly) connected graph cycle_iter yields every simple cycle, and gc-cycle finds no cycle iff there is none.", "quantifier": "every connected graph, every hash order", "why_tests_cant": "all graphs and hash orders", "anchors": ["core/src/iter/iter_cycle.rs: find_starting_edges"]}
{"id": "C68", "title": "Hamiltonian cycle search is sound and complete", "statement": "cycle::hamiltonian(g) returns a cycle iff some simple cycle of g visits every vertex, and what it returns is one, whatever the hash order.", "quantifier": "every reachable graph, every hash order", "why_tests_cant": "all graphs", "anchors": ["core/src/algorithm/cycle.rs: hamiltonian"]}
{"id": "C69", "title": "girth, shortest and longest are extremal", "statement": "girth is the least length of the cycles yielded by cycle_iter (None iff there are none); shortest/longest return a yielded cycle of least/greatest length; first returns the first one.", "quantifier": "every reachable graph", "why_tests_cant": "all graphs", "anchors": ["core/src/algorithm/cycle.rs: girth/shortest/longest/first"]}
{"id": "C70", "title": "Edge constraints on cycles see every edge of the cycle", "statement": "gc-cycle's edge inclusion (exclusion) constraint accepts a cycle iff the edge is (is not) one of the edges of the cycle, the closing edge included.", "quantifier": "every cycle and edge", "why_tests_cant": "all cycles", "anchors": ["core/src/iter/iter_cycle.rs: Cycle::as_path", "command/src/bin/gc-cycle.rs: check"]}
{"id": "C71", "title": "gc-add pattern builders create exactly the documented edges", "statement": "chain links consecutive vertices, cycle additionally links last to first, star links the first vertex to each other one, clique links every ordered pair of distinct positions; --reverse swaps every edge; pairs of --edge are taken two by two and rejected when odd in number.", "quantifier": "every list of vertices", "why_tests_cant": "all lists", "anchors": ["command/src/bin/gc-add.rs: chain_from_vertices/cycle_from_vertices/star_from_vertices/clique_from_vertices/reverse_if_needed", "command/src/arg_utils.rs: as_vertex_tuple/parse_edge_list"]}
{"id": "C72", "title": "Argument parsing", "statement": "A vertex id argument is accepted iff it is an optional '+' followed by a non-empty run of ASCII digits with value below 2^64, and then denotes that value; a list is accepted iff each element is, in order.", "quantifier": "every string", "why_tests_cant": "all strings", "anchors": ["command/src/arg_utils.rs: parse_vertex_id/parse_vertex_id_list"]}
{"id": "C73", "title": "gc-random generates a DAG", "statement": "Whatever the random numbers, the graph creates_random_dag returns has no directed cycle (every edge goes from a smaller to a larger id, at least a layer apart), at least the requested number of edges and fewer than max(vertex_count, 1) more.", "quantifier": "every random stream, vertex count and edge count for which it returns", "why_tests_cant": "all random streams", "anchors": ["command/src/bin/gc-random.rs: creates_random_dag"]}
{"id": "C74", "title": "gc-random terminates", "statement": "creates_random_dag returns for every vertex count and edge count.", "quantifier": "every argument pair and random stream", "why_tests_cant": "non-termination cannot be tested", "anchors": ["command/src/bin/gc-random.rs: creates_random_dag"]}
{"id": "C75", "title": "gc-random honours the vertex count", "statement": "The generated graph has at most the requested number of vertices.", "quantifier": "every argument pair and random stream", "why_tests_cant": "all random streams", "anchors": ["command/src/bin/gc-random.rs: creates_random_dag"]}
{"id": "C76", "title": "gc-desc statistics", "statement": "The minimum and maximum vertex ids printed by gc-desc are the least and greatest contained vertex (a dash iff the graph is empty), independently of the hash order. The counts printed are the number of vertices and the number of edges, two self-loops counting as one; nothing else is printed, and a graph that cannot be read is reported.", "quantifier": "every reachable graph, every hash order", "why_tests_cant": "all graphs", "anchors": ["command/src/bin/gc-desc.rs: main"]}
{"id": "C77", "title": "gc-add tells the user when nothing was stored", "statement": "If the addition could not be written (for example the directory was never initialised) gc-add exits with a failure.", "quantifier": "every directory state", "why_tests_cant": "all states", "anchors": ["command/src/bin/gc-add.rs: main", "command/src/graph_utils.rs: apply_graph_commands"]}
{"id": "C78", "title": "gc-clean removes the graph and only then can it be re-created", "statement": "clean succeeds iff the graph directory exists, removes it together with the commands file, leaves no lock file behind, and init afterwards gives an empty graph; declining the confirmation changes nothing.", "quantifier": "every directory state", "why_tests_cant": "all states", "anchors": ["command/src/graph_utils.rs: clean", "command/src/bin/gc-clean.rs: main"]}
{"id": "C79", "title": "The other command-line constraint builders mean what they say", "statement": "For every value given on the command line, the constraint built for include/exclude vertex and edge lists, ordered vertices, cycle/no-cycle, min/max/exact length, min score and exact score accepts exactly the complete paths the option describes (all of the listed items, none of them, in that order, ...).", "quantifier": "every option value, every path and score", "why_tests_cant": "all option values and all paths", "anchors": ["command/src/arg_utils.rs: build_constraint_*"]}
{"id": "C80", "title": "gc-add adds exactly what its options describe", "statement": "On a directory holding a readable graph, gc-add with well-formed values exits with success, and afterwards the graph loads as the old graph plus the listed vertices, the listed edges, the chain, the cycle, the star (all reversed with --reverse) and the clique, with the ends of all these edges; nothing else changes.", "quantifier": "every combination of options, every list of values, every graph, every buffering of the writes", "why_tests_cant": "all option combinations through the text file", "anchors": ["command/src/bin/gc-add.rs: main", "command/src/graph_utils.rs: add_vertices/add_edges"]}
{"id": "C81", "title": "gc-add is all or nothing", "statement": "If gc-add exits with a failure because a value is malformed, nothing was added.", "quantifier": "every combination of options and values", "why_tests_cant": "all option combinations", "anchors": ["command/src/bin/gc-add.rs: main"]}
{"id": "C82", "title": "gc-delete removes exactly what its options describe", "statement": "On a directory holding a readable graph, gc-delete with well-formed values exits with success, and afterwards the graph loads as the old graph without the listed vertices, the edges at them and the listed edges.", "quantifier": "every list of values, every graph", "why_tests_cant": "all option combinations through the text file", "anchors": ["command/src/bin/gc-delete.rs: main", "command/src/graph_utils.rs: remove_vertices/remove_edges"]}
{"id": "C83", "title": "gc-random stores the generated graph", "statement": "When confirmed on an existing graph directory, gc-random replaces the stored graph by the generated one, which then loads; it fails, leaving the graph part of the directory alone, iff there is no graph directory; declining changes nothing.", "quantifier": "every directory state, every generated graph, every answer", "why_tests_cant": "all states", "anchors": ["command/src/bin/gc-random.rs: main", "command/src/graph_utils.rs: clean/init/save_graph_as_commands"]}
{"id": "C84", "title": "gc-short-path prints a shortest path between two vertices of the graph", "statement": "For well-formed vertex ids and a readable graph, gc-short-path prints a simple path of minimal number of edges with that number as its cost, or that the target is not reachable, exactly when it is not; a path is only reported between vertices that are in the graph.", "quantifier": "every stored graph, every pair of ids in any numeral form, every hash order and tie-break", "why_tests_cant": "all graphs and all tie-breaks", "anchors": ["command/src/bin/gc-short-path.rs: main"]}
{"id": "C85", "title": "gc-csp prints a cheapest path that meets its options", "statement": "For well-formed options, whatever gc-csp prints is right: it first lists the constraints that were asked for, in a text that no other list of constraints has; the printed path runs from the first vertex to the second, visits what is to be included, avoids what is to be excluded, respects the order, the cycle options and the bounds, and has the fewest edges of all such paths, or none exists; if one exists it is found; with --no-cycle, --max-length or --exact-length, or on a graph without cycles, the program always ends.", "quantifier": "every combination of options and values, every stored graph, every hash order and tie-break", "why_tests_cant": "all option combinations on all graphs", "anchors": ["command/src/bin/gc-csp.rs: main", "command/src/arg_utils.rs: build_constraint_*"]}
{"id": "C86", "title": "A malformed option is reported", "statement": "If the value of an option of gc-csp or gc-cycle cannot be read (not a number, an odd number of ids for edges), the program says so instead of answering another question.", "quantifier": "every option value", "why_tests_cant": "all option values", "anchors": ["command/src/bin/gc-csp.rs: main", "command/src/bin/gc-cycle.rs: main", "command/src/arg_utils.rs: parse_edge_list"]}
{"id": "C87", "title": "gc-cycle answers the chosen question about the cycles that meet its options", "statement": "With exactly one action, gc-cycle prints: the girth or that there is none; whether there is a Hamiltonian cycle; the number of simple cycles meeting the constraints; one of the shortest or longest of them; the first n of them; or all of them, each cycle once up to rotation.", "quantifier": "every combination of options, every stored graph, every hash order", "why_tests_cant": "all option combinations on all graphs", "anchors": ["command/src/bin/gc-cycle.rs: main, filter"]}
{"id": "C88", "title": "gc-topo-sort prints a topological order iff the graph has no cycle", "statement": "gc-topo-sort prints all vertices, each once, every edge pointing forwards, if the graph has no cycle, and says so if it has one.", "quantifier": "every stored graph, every hash order", "why_tests_cant": "all graphs", "anchors": ["command/src/bin/gc-topo-sort.rs: main", "core/src/algorithm/topo_sort.rs"]}
{"id": "C89", "title": "The query programs never change the stored graph", "statement": "gc-short-path, gc-csp, gc-topo-sort and gc-cycle leave the directory exactly as it was, at every moment and whatever happens, and fail when the graph cannot be read or an id is malformed.", "quantifier": "every directory state, every argument, every crash point", "why_tests_cant": "all states and all crash points", "anchors": ["command/src/bin/gc-short-path.rs", "command/src/bin/gc-csp.rs", "command/src/bin/gc-topo-sort.rs", "command/src/bin/gc-cycle.rs"]}
{"id": "C90", "title": "Answers depend on the stored graph only, not on how it was written or hashed", "statement": "Two directories whose files describe the same vertices and edges get the same verdict and the same cost from gc-short-path and gc-csp, the same verdict from gc-topo-sort, and the same output from gc-cycle, whatever the order of the commands in the file and of the hash map.", "quantifier": "every two files, every two hash orders, every tie-break", "why_tests_cant": "all hash orders and all files", "anchors": ["command/src/bin/gc-short-path.rs: main", "command/src/bin/gc-csp.rs: main", "command/src/bin/gc-cycle.rs: main", "command/src/bin/gc-topo-sort.rs: main", "core/src/directed_graph.rs"]}
{"id": "C91", "title": "gc-csp ends on every request", "statement": "Whatever the options, gc-csp ends with a path or with the message that there is none; options that no path can meet are reported.", "quantifier": "every combination of options, every stored graph", "why_tests_cant": "divergence cannot be observed by a test", "anchors": ["command/src/bin/gc-csp.rs: main", "core/src/search/a_star.rs: constrained_shortest_path"]}
{"id": "C92", "title": "Partial checks prune every prefix that cannot be completed", "statement": "check_partial accepts a scored path only if some extension of it, with a score at least as large, satisfies the constraint.", "quantifier": "every constraint, every scored path", "why_tests_cant": "all constraints and all extensions", "anchors": ["core/src/constraint/constraint.rs: check_partial"]}
{"id": "C93", "title": "Edges of a vertex are listed in the order they were added", "statement": "outbound_edges and inbound_edges list the edges of a vertex in the order of their last addition, whatever happened to other edges and whatever the hash order.", "quantifier": "every history of commands, every hash order, every vertex", "why_tests_cant": "all histories and hash orders", "anchors": ["core/src/directed_graph.rs: outbound_edges, inbound_edges, add_edge, remove_edge, remove_vertex"]}
{"id": "C94", "title": "The lock file is gone when all processes are done", "statement": "When any number of concurrent additions and removals have all finished, started possibly beside a stale lock file, the lock file does not exist and at least one of them reports success.", "quantifier": "every number of processes, every schedule, every way of cutting the texts into writes", "why_tests_cant": "all schedules", "anchors": ["command/src/graph_utils.rs: with_lock, lock, unlock, apply_graph_commands"]}
{"id": "C95", "title": "A history with interrupted invocations keeps every finished one", "statement": "After any sequence of gc-init, additions, removals and gc-build, where any invocation but gc-build may be killed at any point (each text reaching the file in at most one write, as texts of up to 8192 bytes do), the stored graph is the replay of all finished invocations and of some of the killed ones, each as a whole; a lock file left behind never blocks a later invocation, which succeeds.", "quantifier": "every sequence of invocations, every crash point of each", "why_tests_cant": "all histories with all crash points", "anchors": ["command/src/graph_utils.rs", "core/src/format/gcmd.rs: add_commands"]}
{"id": "C96", "title": "A killed addition leaves whole commands", "statement": "When an addition or removal of any size is killed between two system calls, the old content is intact and the file reads without error as the old commands followed by the first k requested commands, for some k; no command is altered.", "quantifier": "every request, every readable file, every buffer capacity, every kill point between system calls", "why_tests_cant": "all kill points of requests of any size", "anchors": ["core/src/format/gcmd.rs: add_commands", "command/src/graph_utils.rs: apply_graph_commands"]}
{"id": "C97", "title": "Requests of up to 8192 bytes are all or nothing", "statement": "An addition or removal whose text fits in the 8192 byte buffer reaches the file in at most one write: when killed it took effect as a whole or not at all, and any number of such requests running concurrently, each finished or killed anywhere, leave a list of whole requests, all of them when all processes end.", "quantifier": "every request of up to 8192 bytes, every number of processes, every schedule, every kill point", "why_tests_cant": "all schedules and kill points", "anchors": ["core/src/format/gcmd.rs: add_commands", "command/src/graph_utils.rs: with_lock, apply_graph_commands"]}
{"id": "C98", "title": "Large requests do not spoil later or concurrent ones", "statement": "After a large addition was killed, or while it runs, an addition made by another process keeps the graph readable.", "quantifier": "every request, every kill point and schedule", "why_tests_cant": "needs a write that ends exactly before a line feed", "anchors": ["core/src/format/gcmd.rs: add_commands"]}
{"id": "C99", "title": "A killed gc-build invents nothing", "statement": "When gc-build is killed between two system calls, the directory is unchanged, or loading reports an error, or loading gives a graph all of whose vertices and edges were in the old graph; it never panics and no new id appears.", "quantifier": "every loadable directory, every hash order, every buffer capacity, every kill point", "why_tests_cant": "all kill points and hash orders", "anchors": ["command/src/bin/gc-build.rs: main", "core/src/format/gcmd.rs: save"]}
{"id": "C100", "title": "A file is read as the UTF-8 text it holds", "statement": "A commands file or TGF file given as bytes is accepted exactly if the bytes are well-formed UTF-8 and each line of the text is a comment, empty or well-formed; the commands are those of the text. Loading and gc-build on the bytes do what they do on the text.", "quantifier": "every sequence of bytes", "why_tests_cant": "all byte sequences: overlong forms, surrogates, truncated characters, line ends inside characters", "anchors": ["core/src/format/utils.rs: read_as_commands", "core/src/format/gcmd.rs: read_as_commands", "core/src/format/tgf.rs: read_as_commands"]}
{"id": "C101", "title": "A file that is not UTF-8 is reported as an error", "statement": "Reading a file whose bytes are not UTF-8 returns an error that names the problem, as a malformed line does; it is never accepted, and lines before the bad one are treated as usual.", "quantifier": "every sequence of bytes that is not UTF-8", "why_tests_cant": "all ill-formed byte sequences, wherever the bad byte is", "anchors": ["core/src/format/utils.rs: read_as_commands (line.unwrap())"]}
{"id": "C102", "title": "The tools never make a file undecodable", "statement": "If the commands file is UTF-8, then after any interleaving of steps of any number of running tools (gc-init, gc-add, gc-delete, gc-build, gc-clean, gc-random), with any of them stopped at any point and with any buffering, it is UTF-8; if it was ASCII it stays ASCII.", "quantifier": "every schedule, every stopping point, every buffering, every UTF-8 content", "why_tests_cant": "all interleavings and crash points", "anchors": ["command/src/graph_utils.rs", "core/src/format/gcmd.rs: save, add_commands, command_into_line"]}
{"id": "C103", "title": "Optimised builds give the answers of checked builds", "statement": "Whenever the build with overflow checks does not panic, the optimised build, whose arithmetic wraps around, returns exactly the same from dag_shortest_paths, dag_longest_paths, bellman_ford, spfa and max_flow. For small weights its answers are therefore the minimal-weight walks, and None from bellman_ford means a reachable negative cycle.", "quantifier": "every reachable graph, weight and capacity function, start, end", "why_tests_cant": "tests run with overflow checks; all graphs and weights", "anchors": ["core/src/algorithm/shortest_path.rs", "core/src/algorithm/longest_path.rs", "core/src/algorithm/max_flow.rs", "Cargo.toml"]}
{"id": "C104", "title": "Scores of optimised builds are weights", "statement": "With weights that are each valid i64 but large, an optimised build still returns the weight of each path it returns (expected, refuted: sums wrap around, also to negative scores for positive weights). Every returned path is a walk of the graph from the start to its vertex, and its score is the walk's weight modulo 2^64 in the i64 range; spfa ends on every graph.", "quantifier": "every reachable graph, every weight function, start", "why_tests_cant": "needs sums beyond 64 bits and builds that tests do not run", "anchors": ["core/src/algorithm/shortest_path.rs", "core/src/algorithm/longest_path.rs"]}
{"id": "C105", "title": "max_flow with any capacities", "statement": "For start different from end and arbitrary u64 capacities, an optimised build reports a positive value whenever the end can be reached through positive capacities (expected, refuted: a value of 2^64 is reported as 0). Both builds compute one feasible flow that saturates an edge of every walk; the checked build returns it with its value if that fits in u64 and panics otherwise, the optimised build returns it with the value modulo 2^64.", "quantifier": "every reachable graph, every u64 capacity function, start and end", "why_tests_cant": "needs capacities near 2^64; all graphs", "anchors": ["core/src/algorithm/max_flow.rs: max_flow"]}
{"id": "C106", "title": "A reader sees what the file held at one moment", "statement": "A program that loads the graph by several read calls while any number of additions and removals run answers with the graph stored at one moment of its run (expected, refuted for files whose last line is torn: a graph can be seen that was never stored). With whole lines in the file and one write per request the answer is the old graph with some whole requests applied, whatever the read calls give and under every schedule; always, what is read is the content of one moment cut where the file ended at earlier moments. Alone, reading in pieces is reading at once.", "quantifier": "every number of writers, every schedule, every way read calls cut the file, every content", "why_tests_cant": "all interleavings of read and write calls", "anchors": ["core/src/format/utils.rs: read_as_commands", "command/src/graph_utils.rs: load_graph, apply_graph_commands"]}
{"id": "C107", "title": "A reader beside gc-build sees the stored graph", "statement": "A program that loads the graph while gc-build rewrites the file, which does not change the graph, sees only vertices of the graph (expected, refuted: two half lines of the old and the new text can make up an id that was never added).", "quantifier": "every schedule of read and write calls", "why_tests_cant": "needs a rewrite between two read calls", "anchors": ["core/src/format/utils.rs: read_as_commands", "command/src/bin/gc-build.rs: main", "command/src/graph_utils.rs: load_graph"]}
{"id": "C108", "title": "A* with scores that overflow", "statement": "When costs and heuristics are arbitrary 64-bit values, the plain and the constrained A* search of a build with overflow checks return exactly what arithmetic without bounds would give, or panic because the sum for some path from the start leaves the i64 range (for the plain search, a path without repeated vertices); the plain search always ends one way or the other. Whenever the checked build returns, the optimised build returns the same. If no sum leaves the range both are exact, which holds for edge counts on fewer than 2^63 vertices. An optimised build never panics: it returns a path exactly when the target is reachable, with the sum modulo 2^64 as its score.", "quantifier": "every reachable graph, every cost and heuristic, every start and target, every constraint list, every tie-breaking of the queue", "why_tests_cant": "all graphs and score functions; the overflow depends on which paths the search generates", "anchors": ["core/src/search/a_star.rs: shortest_path, constrained_shortest_path", "core/src/iter/iter_best.rs: best_iter_from", "core/src/iter/iter_best_constraint.rs: constrained_best_iter_from"]}
{"id": "C109", "title": "Costs and estimates in range give the cheap path", "statement": "If every cost and every heuristic value is a non-negative i64, then A* in either build answers as it would without bounds on numbers (expected, refuted: with an edge of weight i64::MAX used to forbid a step and an estimate of 1, the checked build panics and the optimised build returns the forbidden path, of cost 2^63-1, instead of a path of cost 2).", "quantifier": "every reachable graph, every cost and heuristic with values in range", "why_tests_cant": "needs the sum of two valid values to leave the range", "anchors": ["core/src/search/a_star.rs: shortest_path"]}
{"id": "C110", "title": "gc-random killed half-way", "statement": "If gc-random is killed at any point, the directory holds the old graph or the new one (expected, refuted: there may be no graph, or an empty one). At every point one of three holds: the stored graph is untouched; there is no readable graph and every reader says so; or what loads is a part of the new graph, with no vertex and no edge that the new graph lacks.", "quantifier": "every stored content, every new graph with u64 ids, every buffer size, every kill point", "why_tests_cant": "kill points between all system calls", "anchors": ["command/src/bin/gc-random.rs: main", "command/src/graph_utils.rs: clean, init, save_graph_as_commands"]}
{"id": "C111", "title": "A directory can always be repaired", "statement": "Starting from a directory with nothing but the tools' own files, after any number of tools ran at the same time and were killed anywhere, gc-init succeeds and keeps the stored commands if there are any; gc-clean --force then succeeds and removes graph and lock file; and a further gc-init gives the empty graph.", "quantifier": "every set of tools and arguments, every schedule, every point at which each is stopped, every stored content", "why_tests_cant": "all interleavings and kill points", "anchors": ["command/src/graph_utils.rs: init, clean, with_lock, lock, unlock, save_graph_as_commands, apply_graph_commands", "command/src/bin/gc-init.rs: main", "command/src/bin/gc-clean.rs: main"]}
{"id": "C112", "title": "What gc-build prints", "statement": "With --verbose gc-build prints the number of vertices and the number of edges of the stored graph (expected, refuted for the edges: a single self-loop is reported as 0). Printing has no effect on the files, the exit status or the states a kill can leave; 'Done.' is printed, as the last line, exactly on success, also when other processes run at the same time; the vertex number is right; the edge number is right for graphs without self-loops.", "quantifier": "every stored content, every hash order, every buffering", "why_tests_cant": "ranges over all stored graphs", "anchors": ["command/src/bin/gc-build.rs: main", "core/src/directed_graph.rs: edge_count, vertex_count"]}
{"id": "C113", "title": "gc-build on a full disk", "statement": "If gc-build prints 'Done.' and exits with success, the graph is stored (expected, refuted: the last buffer is written when the file is dropped and errors there are ignored, so on a full disk every graph of up to 8192 bytes of text is replaced by the empty graph, with 'Done.' and success). Whatever the operating system answers to the write calls, the file ends up with the new text up to some byte; a failure status has a refused call as its reason; success means that at most one buffer is missing; calls that are merely cut short lose nothing. The same prefix form holds if the process is also killed.", "quantifier": "every stored graph, every hash order, every buffer size, every sequence of answers to write calls, every kill point", "why_tests_cant": "needs write calls that fail or are cut short at every place", "anchors": ["command/src/bin/gc-build.rs: main", "core/src/format/gcmd.rs: save"]}
{"id": "C114", "title": "Additions on a full disk", "statement": "If gc-add exits with success, the request is stored (expected, refuted: on a full disk nothing is ever stored and every well-formed request ends with success; the exit status never depends on the disk). Whatever the operating system answers to the write calls, the old content stays, followed by the request's text up to some byte; the lock is released; it reads as the old commands and a prefix of the new ones, the last possibly cut or unreadable; calls that are merely cut short lose nothing. If the disk is full for some options of gc-add and not for others, exactly the others take effect.", "quantifier": "every stored content, every request, every sequence of answers to write calls", "why_tests_cant": "needs write calls that fail or are cut short at every place", "anchors": ["command/src/bin/gc-add.rs: main", "core/src/format/gcmd.rs: add_commands", "command/src/graph_utils.rs: apply_graph_commands, with_lock"]}
{"id": "C115", "title": "Open files and names", "statement": "As long as nobody removes the graph directory, it makes no difference whether a program that has opened the commands file acts on that file or on whatever has its name: every execution of any number of gc-init, additions, removals and gc-build, in any interleaving and stopped anywhere, shows the same files and the same exit statuses. In particular concurrent requests of one write each lose nothing.", "quantifier": "every set of these tools, every schedule, every stop point, every stored content", "why_tests_cant": "all interleavings of system calls", "anchors": ["command/src/graph_utils.rs: init, load_graph, apply_graph_commands, save_graph_as_commands", "core/src/format/gcmd.rs: save, add_commands"]}
{"id": "C116", "title": "What began before gc-random cannot change the new graph", "statement": "Once gc-random has stored a new graph, programs that were already running cannot change it (expected, refuted: a gc-build that has read the old graph but not yet written brings the old graph back, both reporting success). Programs that had already opened the commands file cannot: whatever they still write, in any interleaving, the new graph stays as stored.", "quantifier": "every stored content, every new graph, any number of running programs at any point, every schedule", "why_tests_cant": "all interleavings of system calls", "anchors": ["command/src/bin/gc-random.rs: main", "command/src/bin/gc-build.rs: main", "command/src/graph_utils.rs: clean, init, save_graph_as_commands, apply_graph_commands"]}
{"id": "C117", "title": "How far max_flow can be from the maximum", "statement": "If every path without a repeated vertex from start to end has at most k edges, no feasible flow carries more than k times the value max_flow reports; so on a graph with n vertices the value is at least the maximum divided by n - 1.", "quantifier": "every graph, all capacities whose sum fits, every pair of different vertices, every feasible flow, every hash order", "why_tests_cant": "ranges over all graphs, capacities and competing flows", "anchors": ["core/src/algorithm/max_flow.rs: max_flow, find_augmenting_path, update_flow"]}
{"id": "C118", "title": "Exactly which graph gc-random generates", "statement": "With a vertex count n of at least 2, the k-th random number is paired with vertex 1 + k mod (n - 1); pairs more than n/10 apart are edges from the smaller to the larger. The generated graph has exactly the edges of the first r (n - 1) draws, where r is the least number of rounds that gives the wanted number of different edges, and exactly their ends as vertices; generation ends if and only if that many different edges are ever drawn.", "quantifier": "every vertex count and edge count, every infinite sequence of random numbers", "why_tests_cant": "ranges over all random sequences, including those on which the program does not end", "anchors": ["command/src/bin/gc-random.rs: creates_random_dag"]}
{"id": "C119", "title": "Additions made while gc-build runs", "statement": "When gc-build and some additions and removals run at the same time and all report success, the stored graph can be read (expected, refuted: an addition written between gc-build's truncation and its write is overwritten in part, and what is left of its line is reported as an error from then on). Under every schedule of any number of requests of one write each beside one gc-build, gc-build succeeds and the requests fall into three groups: the early ones are all in the rewritten graph, the lost ones are gone, and the text of the late ones is kept from some byte on; if the file can be read it holds the old graph with all early requests and some last commands of the late ones applied, else the reader reports an error and does not panic.", "quantifier": "every stored graph, every number of requests, every schedule, every hash order, every buffering of gc-build", "why_tests_cant": "needs an addition between two calls of gc-build, and all schedules", "anchors": ["command/src/bin/gc-build.rs: main", "command/src/graph_utils.rs: apply_graph_commands, save_graph_as_commands", "core/src/format/gcmd.rs: save, add_commands"]}
{"id": "C120", "title": "gc-delete and gc-random on a full disk", "statement": "If gc-delete reports success, nothing but what it was told to remove is gone; if gc-random reports success, the generated graph is stored (expected, both refuted: 'RemoveVertex 12' cut by a full disk reads 'RemoveVertex 1', so vertex 1 is removed and 12 stays, with success; gc-random on a full disk reports success and leaves the empty graph in place of the old one). Whatever the operating system answers to the write calls, well-formed gc-delete requests end with success and the file grows by a prefix of each request's text; gc-random leaves the new text up to some byte, a failure has a refused call as its reason, and success means that at most one buffer is missing; calls that are merely cut short lose nothing.", "quantifier": "every stored content, every request, every graph, every buffer size, every sequence of answers to write calls", "why_tests_cant": "needs write calls that fail or are cut short at every place", "anchors": ["command/src/bin/gc-delete.rs: main", "command/src/bin/gc-random.rs: main", "command/src/graph_utils.rs: save_graph_as_commands, apply_graph_commands", "core/src/format/gcmd.rs: save, add_commands"]}
{"id": "C121", "title": "gc-random honours its options", "statement": "With --connected the stored graph is connected, with --cycle it contains the cycle, and a malformed --edge-count is reported (expected, all refuted: the first two options are never read, so the stored graph can have two components and never has a cycle, and a malformed count is silently replaced by three times the vertex count). What the whole program does: a malformed vertex count, or one whose triple overflows in a checked build even if an edge count is given, is a failure that changes nothing; otherwise a refusal changes nothing and succeeds, and when forced or confirmed it succeeds exactly if there was a graph directory, and the stored graph then has exactly the edges of the least number of whole rounds of draws that gives the wanted number of edges. It ends exactly if enough edges can be drawn.", "quantifier": "every value of every option, every sequence of random numbers, every stored content, every answer, both builds", "why_tests_cant": "ranges over all option values, random sequences and directory contents", "anchors": ["command/src/bin/gc-random.rs: main, creates_random_dag"]}
{"id": "C122", "title": "A failure status means nothing was changed", "statement": "If gc-build, gc-clean or gc-random ends with a failure because a line could not be printed (closed pipe), nothing was changed (expected, refuted for gc-clean and gc-build: when 'Done.' cannot be printed the work has been done). The program stops at the first line that cannot be printed, with a failure; lines before the work leave everything as it was, a line after it leaves all of the work; success means that the work was done and, except for a silent gc-clean, that 'Done.' was printed; gc-random prints only before its work; an unreadable answer is a failure that changes nothing.", "quantifier": "every first line that cannot be printed, every stored content, every option, every answer", "why_tests_cant": "needs standard output to fail at every line", "anchors": ["command/src/bin/gc-build.rs: main", "command/src/bin/gc-clean.rs: main", "command/src/bin/gc-random.rs: main", "command/src/arg_utils.rs: confirmation_yes_no"]}
{"id": "C123", "title": "gc-clean is all or nothing", "statement": "A gc-clean that is killed leaves either the graph as it was or no graph (expected, refuted: killed between removing the commands file and removing the directory, it leaves an empty graph directory). That is the only other outcome: readers report it as an error, and the next forced gc-clean removes it. With directories made and removed one system call at a time, gc-init, gc-clean and gc-random still do, when they run to the end, exactly what they do when making and removing is one step; a killed gc-random has the outcomes of C110; and after any interleaving of any number of programs, stopped anywhere, gc-init makes the directory usable, keeping the commands file if there is one, and a forced gc-clean and gc-init lead to an empty graph and no lock file.", "quantifier": "every stored content, every system call at which a program is killed, every interleaving, both behaviours of the standard library for entries that vanish", "why_tests_cant": "needs a kill between any two system calls, and all interleavings", "anchors": ["command/src/graph_utils.rs: init, clean, touch, with_lock", "command/src/bin/gc-clean.rs: main", "command/src/bin/gc-init.rs: main", "command/src/bin/gc-random.rs: main"]}
{"id": "C124", "title": "gc-clean beside other programs", "statement": "If gc-clean reports failure, the graph is still there (expected, refuted: beside a gc-add, gc-clean removes everything and reports failure because the lock file is gone; beside a gc-init that runs between the removal of the commands file and of the directory, gc-clean reports failure, gc-init success, and the graph is now empty). When any number of additions, removals, reads and gc-cleans run in any interleaving on a directory that holds a graph, the commands file is gone as soon as one gc-clean has finished, whatever it reports, and the directory is gone once all have finished.", "quantifier": "every stored content, any number of programs of each kind, every schedule of their system calls", "why_tests_cant": "needs all interleavings of system calls", "anchors": ["command/src/graph_utils.rs: clean, init, with_lock, lock, unlock, apply_graph_commands", "command/src/bin/gc-clean.rs: main", "command/src/bin/gc-init.rs: main", "command/src/bin/gc-add.rs: main"]}
{"id": "C125", "title": "When the reported flow is the maximum", "statement": "The value max_flow reports is the maximum exactly when the flow it returns leaves no way to push more from start to end, counting the ways that take back flow already sent; so the answer can be checked from the output. In particular the value is the maximum on every graph in which each vertex other than start and end has at most one edge into it, and on every graph in which each such vertex has at most one edge out of it.", "quantifier": "every graph, every capacity function whose capacities sum to less than 2^64, every start and end, every feasible flow as a competitor", "why_tests_cant": "ranges over all graphs, capacities and competing flows", "anchors": ["core/src/algorithm/max_flow.rs: max_flow, find_augmenting_path, AugmentingPathIter::next"]}
{"id": "C126", "title": "The reported flow is within a constant factor of the maximum", "statement": "There is a factor k such that on every graph the maximum flow is at most k times the value max_flow reports (expected, refuted: for every n there is a graph with all capacities 1 on which max_flow reports 1 and another flow carries n).", "quantifier": "every factor, every n, an explicit family of graphs", "why_tests_cant": "no finite set of examples rules out every factor", "anchors": ["core/src/algorithm/max_flow.rs: max_flow, find_augmenting_path, AugmentingPathIter::next"]}
{"id": "C127", "title": "Reachability queries take one step per vertex", "statement": "Breadth-first and depth-first traversal make exactly one call of next for each vertex reachable from the start and one more, hence at most one for each vertex of the graph and one more; A* (and so gc-short-path) answers within (number of vertices + 2) calls whatever the scores and the order in which ties are broken; the topological sort answers within (number of vertices + 1) rounds.", "quantifier": "every graph, every start and target, every score function, every queue order", "why_tests_cant": "the bound is on all graphs; a test measures one", "anchors": ["core/src/iter/iter_breadth.rs: BreadthFirstIter::next", "core/src/iter/iter_depth.rs: DepthFirstIter::next", "core/src/iter/iter_best.rs: BestFirstIter::next", "core/src/search/a_star.rs: shortest_path", "core/src/algorithm/topo_sort.rs: topological_sort"]}
{"id": "C128", "title": "Flow, constrained and cycle queries take polynomially many steps", "statement": "On acyclic graphs max_flow, a gc-csp query for an unreachable vertex and gc-cycle answer within a number of steps polynomial in the size of the graph (expected, refuted: an answer costs at least one step for each simple path from the start (max_flow, whatever the capacities and the end), for each walk from the start that meets the constraints (gc-csp), for each simple path from a vertex the search starts at (gc-cycle); on the acyclic ladder given by 4k AddEdge commands each of the three needs more than 2^k steps).", "quantifier": "every graph, capacity function, constraint list and queue order for the lower bounds; every k for the ladder", "why_tests_cant": "no finite set of timings shows growth", "anchors": ["core/src/algorithm/max_flow.rs: max_flow, AugmentingPathIter::next", "core/src/search/a_star.rs: constrained_shortest_path", "core/src/iter/iter_best_constraint.rs: ConstrainedBestFirstIter::next", "core/src/iter/iter_cycle.rs: CycleIter::next"]}
{"id": "C129", "title": "SPFA takes at most V*E turns", "statement": "When no negative cycle is in reach, spfa takes at most as many turns as Bellman-Ford relaxes edges, V*E (expected, refuted: it appends a vertex at every improvement, queued already or not, and on an acyclic graph of k*(k+1)/2 vertices it takes 2^k - 1 turns and more, for every k up to 50). It takes at most one turn for each simple path from the start, and then has the shortest paths, with a bound that does not depend on the weights.", "quantifier": "every graph, weight function without a reachable negative cycle and without overflow, every start; an explicit family of graphs", "why_tests_cant": "no finite set of timings shows growth; the bound is on all graphs", "anchors": ["core/src/algorithm/shortest_path.rs: spfa, bellman_ford"]}
{"id": "C130", "title": "The shortest-path algorithms agree", "statement": "On an acyclic graph whatever dag_shortest_paths reports, bellman_ford and spfa report the same score for every vertex (and agree on which vertices have one); dag_longest_paths reports for every vertex the negated score bellman_ford reports for the negated weights.", "quantifier": "every acyclic graph, every weight function whose sums fit in 64 bits, every start", "why_tests_cant": "agreement on all graphs and weights; a test compares one graph", "anchors": ["core/src/algorithm/shortest_path.rs: dag_shortest_paths, bellman_ford, spfa", "core/src/algorithm/longest_path.rs: dag_longest_paths"]}
{"id": "C131", "title": "The results depend only on the graph", "statement": "Two graphs with the same vertices and edges give the same scores from bellman_ford, spfa, dag_shortest_paths and dag_longest_paths, however they were built and whatever the hash order. Also expected: whether dag_shortest_paths panics, and the value of max_flow, depend only on the graph (both refuted: the same commands with another hash order panic or not; the same edges added in another order give a flow of 1 or 2). For one history of commands spfa and max_flow do not depend on the hash order; two values of max_flow for the same graph differ by at most the factor of the longest simple path.", "quantifier": "every two graphs with the same vertices and edges, every hash order, weight and capacity function", "why_tests_cant": "the hash order changes at every run of the program and cannot be set by a test", "anchors": ["core/src/algorithm/shortest_path.rs: dag_shortest_paths, bellman_ford, spfa", "core/src/algorithm/longest_path.rs: dag_longest_paths", "core/src/algorithm/max_flow.rs: max_flow", "core/src/directed_graph.rs: DirectedGraph"]}
{"id": "C132", "title": "Raising a capacity never lowers the reported flow", "statement": "If no edge has a smaller capacity in cap' than in cap, max_flow reports at least as much for cap' as for cap (expected, refuted: raising one capacity from 0 to 1 lowers the value from 2 to 1). A positive value stays positive, the value falls at most by the factor of the longest simple path, and it does not fall when the new flow leaves no pushing path (C125).", "quantifier": "every graph, every two capacity functions, every two vertices", "why_tests_cant": "a relation between two runs for all graphs and capacities", "anchors": ["core/src/algorithm/max_flow.rs: max_flow"]}
{"id": "C133", "title": "gc-csp without options answers as gc-short-path does", "statement": "When the target is reachable both programs report the same cost, each with a path of that many edges. When it is not, gc-short-path says so; that gc-csp without options then says so too is refuted: it ends exactly when no cycle can be reached from the start. A gc-csp query with more demands never reports a cheaper path.", "quantifier": "every graph file, every two vertices, every hash and queue order, every two requests of which one demands more", "why_tests_cant": "two programs compared on all inputs; non-termination is not observable by a test", "anchors": ["command/src/bin/gc-short-path.rs: main", "command/src/bin/gc-csp.rs: main", "core/src/search/a_star.rs: shortest_path, constrained_shortest_path"]}
{"id": "C134", "title": "gc-cycle and gc-topo-sort agree", "statement": "On every graph gc-cycle --girth reports Infinity exactly when gc-topo-sort prints an order (expected, refuted both ways: a cycle beside an isolated vertex gives Infinity and no order, a self-loop gives girth 1 and an order). On graphs without self-loops a reported girth means that gc-topo-sort reports that the graph is not a DAG; conversely when every vertex is reachable from a source, or the graph is strongly connected.", "quantifier": "every graph file, every hash order of each program", "why_tests_cant": "two programs compared on all inputs", "anchors": ["command/src/bin/gc-cycle.rs: main", "command/src/bin/gc-topo-sort.rs: main", "core/src/iter/iter_cycle.rs: cycle_iter", "core/src/algorithm/topo_sort.rs: topological_sort"]}
{"id": "C135", "title": "Hamiltonian cycles are Hamiltonian paths that close", "statement": "cycle::hamiltonian finds a cycle exactly when iter_hamiltonian_paths lists a path with an edge from its last vertex to its first; every rotation of the cycle found is among the paths listed, and is_hamiltonian then answers true.", "quantifier": "every graph", "why_tests_cant": "two searches compared on all graphs", "anchors": ["core/src/algorithm/cycle.rs: hamiltonian", "core/src/algorithm/hamiltonian.rs: iter_hamiltonian_paths, is_hamiltonian"]}
{"id": "C136", "title": "The order of commands matters only where they conflict", "statement": "An edge is in the graph iff the last command of the log that adds it, removes it or removes one of its ends adds it; a vertex iff the last command that adds it (alone or as an end of an edge) or removes it is an addition. Two commands can be exchanged on every graph exactly when neither removes what the other adds. A log may be reordered in any way that keeps conflicting commands in order; additions may be reordered at will.", "quantifier": "every log of commands, every reordering", "why_tests_cant": "all logs and all reorderings", "anchors": ["core/src/graph_command.rs: GraphCommand, apply_commands", "core/src/directed_graph.rs: DirectedGraph"]}
{"id": "C137", "title": "gc-delete undoes gc-add", "statement": "Deleting the edges or vertices just added gives the graph there was before (expected, refuted: the ends of the edges stay, and a vertex that was there before goes). Exactly: the old graph is back iff gc-delete names nothing that was there before and everything new. gc-add and gc-delete can be exchanged iff the one names nothing the other adds.", "quantifier": "every stored graph, every options of gc-add and gc-delete", "why_tests_cant": "two programs in sequence on all graphs and options", "anchors": ["command/src/bin/gc-add.rs: main", "command/src/bin/gc-delete.rs: main"]}
{"id": "C138", "title": "gc-build makes the file no longer", "statement": "After gc-build the file is at most as long as before (expected, refuted: one AddEdge becomes three lines). The file has exactly one line for each vertex and one for each edge, hence at most three lines for each command read; files built from the same graph have the same lines up to their order and the same size, however the graph was written before and whatever the hash order.", "quantifier": "every commands file, every hash order", "why_tests_cant": "all files; the hash order cannot be set by a test", "anchors": ["command/src/bin/gc-build.rs: main", "core/src/format/gcmd.rs: save"]}
{"id": "C139", "title": "Adding to a graph loses nothing", "statement": "When a graph has all vertices and edges of another: gc-desc prints no smaller count, no larger least and no smaller greatest id; gc-short-path reports no larger cost and no path less; if gc-topo-sort orders the larger one, it orders the smaller one; gc-cycle reports no larger girth and no smaller count (this one refuted: one more isolated vertex and gc-cycle reports Infinity; proved where it looks everywhere in the larger graph, for every choice of options); a Hamiltonian graph stays Hamiltonian when edges between its vertices are added.", "quantifier": "every two stored graphs of which one contains the other, every options, every hash order", "why_tests_cant": "a relation between two answers for all pairs of graphs", "anchors": ["command/src/bin/gc-short-path.rs: main", "command/src/bin/gc-topo-sort.rs: main", "command/src/bin/gc-cycle.rs: main", "core/src/algorithm/hamiltonian.rs: is_hamiltonian"]}
{"id": "C140", "title": "Reported costs behave as distances", "statement": "gc-short-path reports cost 0 exactly from a vertex to itself, cost 1 between two vertices exactly when there is an edge, and the cost from x to z is at most the cost from x to y plus that from y to z, whatever the hash and queue orders of the three runs.", "quantifier": "every stored graph, every three vertices", "why_tests_cant": "all graphs and all triples of vertices", "anchors": ["command/src/bin/gc-short-path.rs: main", "core/src/search/a_star.rs: shortest_path"]}
{"id": "C141", "title": "Power loss keeps what the tools reported as done", "statement": "After a power loss the stored graph is the one left by all the invocations that had reported success. This is false: nothing is synced, so a successful addition can be missing and a successful gc-build can leave an empty file. On a disk that stores effects in order, what is found is the effect of the first invocations, then at most a beginning of the next (with its last id perhaps cut short, or an unreadable file), or a beginning of what gc-build was writing; without gc-build and with requests of at most 8192 bytes stored whole, it is exactly the effect of the first invocations of each period, and the next invocation succeeds. If the length but not all the contents were stored (zeros in place of characters), a file without comments is refused or is a beginning of the file; a comment can swallow the next command.", "quantifier": "every list of invocations and of periods ended by power losses, every moment, every set of lost characters", "why_tests_cant": "a test cannot cut the power at every moment or lose every set of characters", "anchors": ["core/src/format/gcmd.rs: add_commands", "command/src/graph_utils.rs: apply_graph_commands", "command/src/graph_utils.rs: save_graph_as_commands", "command/src/bin/gc-build.rs: main"]}
{"id": "C142", "title": "Ids are only names", "statement": "Giving the vertices other names (a one-to-one renaming of ids in the commands file, in the arguments and in the options) gives the same answers about the renamed vertices: the graph has the renamed vertices and edges and lists them in the same order; the traversals visit the renamed vertices in the same order; gc-desc prints the same counts, and the renamed extreme ids when the renaming keeps the order of ids; gc-short-path prints the renamed path with the same cost; gc-csp prints the renamed listing and the renamed path, or finds none, or runs on, exactly as before; gc-topo-sort gives an order of the renamed vertices or refuses in both cases; gc-cycle answers each of its questions alike: the same girth and count, all renamed cycles, shortest and longest cycles of the same length, a Hamiltonian cycle of the renamed vertices or none (on graphs with a vertex without entering edges and on strongly connected ones; for options about vertices, lengths and scores). Expected and refuted for edge options: a cycle is listed from its least id on and the edge back to it is overlooked, so the count changes with the names.", "quantifier": "every commands file, every one-to-one renaming, every arguments and options, every two hash orders", "why_tests_cant": "all files and all renamings; hash orders cannot be set by a test", "anchors": ["core/src/directed_graph.rs: DirectedGraph", "core/src/iter/iter_breadth.rs: BreadthFirstIter", "core/src/iter/iter_depth.rs: DepthFirstIter", "core/src/search/a_star.rs: shortest_path", "core/src/constraint/constraint.rs: Constraint", "command/src/bin/gc-short-path.rs: main", "command/src/bin/gc-csp.rs: main", "command/src/bin/gc-topo-sort.rs: main", "command/src/bin/gc-cycle.rs: main"]}
{"id": "C143", "title": "The tools accept what their help texts describe, and understand it", "statement": "A program accepts a command line exactly when the line is written with the options of its help text (long or short names, several short ones in one word, values as separate words, after an equals sign or attached, a closing --), every option has as many values as it takes, what is required is given, nothing is given twice that cannot be repeated, and of a group exactly one is used; each option then has exactly the values written with it, or its default. Any other line stops the program before it touches a file.", "quantifier": "every program, every list of words", "why_tests_cant": "all lists of words; tests try a few lines", "anchors": ["command/src/bin/gc-init.rs: main", "command/src/bin/gc-add.rs: main", "command/src/bin/gc-delete.rs: main", "command/src/bin/gc-build.rs: main", "command/src/bin/gc-clean.rs: main", "command/src/bin/gc-desc.rs: main", "command/src/bin/gc-random.rs: main", "command/src/bin/gc-short-path.rs: main", "command/src/bin/gc-csp.rs: main", "command/src/bin/gc-topo-sort.rs: main", "command/src/bin/gc-cycle.rs: main"]}
{"id": "C144", "title": "The order of the options does not matter", "statement": "Two lines with the same uses of the same options, in any order and in any spelling (long, short, with equals signs), start the same program in the same directory.", "quantifier": "every program, every two written lines", "why_tests_cant": "all permutations and spellings", "anchors": ["command/src/bin/gc-init.rs: main", "command/src/bin/gc-add.rs: main", "command/src/bin/gc-delete.rs: main", "command/src/bin/gc-build.rs: main", "command/src/bin/gc-clean.rs: main", "command/src/bin/gc-desc.rs: main", "command/src/bin/gc-random.rs: main", "command/src/bin/gc-short-path.rs: main", "command/src/bin/gc-csp.rs: main", "command/src/bin/gc-topo-sort.rs: main", "command/src/bin/gc-cycle.rs: main"]}
{"id": "C145", "title": "gc-cycle options given on the command line have the effect described", "statement": "A line accepted by gc-cycle asks for exactly one of the eight actions, and the vertex and edge options restrict the cycles to those with the given vertices and edges. The second part is false: no accepted line gives --include-all, --exclude-all or the two edge options more than one value, a lone value never is an edge list, so the edge options never have an effect from the command line and vertex options speak of one vertex at most.", "quantifier": "every line accepted by gc-cycle", "why_tests_cant": "all lines; that no line reaches a piece of code cannot be tested", "anchors": ["command/src/bin/gc-cycle.rs: main", "command/src/arg_utils.rs: parse_edge_list"]}
{"id": "C146", "title": "Scores on the command line may be negative", "statement": "A bound on the score can be given as any integer. False for a value in a word of its own: no program accepts a line in which a word is a negative number; a value after an equals sign is taken as it is.", "quantifier": "every program, every accepted line, every value", "why_tests_cant": "all lines", "anchors": ["command/src/bin/gc-csp.rs: main", "command/src/bin/gc-cycle.rs: main"]}
{"id": "C147", "title": "From the command line to the stored graph", "statement": "An accepted gc-add line whose values are ids (an even number of them for edges) adds exactly the vertices and edges its options describe, whatever the stored graph; a line with one option and at least two ids is accepted; gc-init followed by gc-add --clique in a directory without a graph stores exactly the clique.", "quantifier": "every accepted line, every stored graph, every hash order and buffering", "why_tests_cant": "all lines and stored graphs", "anchors": ["command/src/bin/gc-init.rs: main", "command/src/bin/gc-add.rs: main", "command/src/graph_utils.rs: init", "core/src/format/gcmd.rs: add_commands"]}
{"id": "C148", "title": "The directory and the required options are always there", "statement": "On every accepted line the program works in the directory given with --path, or the current one if none is given; what has to be given was given, so that the program does not panic on a missing value; gc-short-path with --start and --end searches between exactly these.", "quantifier": "every program, every accepted line", "why_tests_cant": "all lines", "anchors": ["command/src/bin/gc-init.rs: main", "command/src/bin/gc-add.rs: main", "command/src/bin/gc-delete.rs: main", "command/src/bin/gc-build.rs: main", "command/src/bin/gc-clean.rs: main", "command/src/bin/gc-desc.rs: main", "command/src/bin/gc-random.rs: main", "command/src/bin/gc-short-path.rs: main", "command/src/bin/gc-csp.rs: main", "command/src/bin/gc-topo-sort.rs: main", "command/src/bin/gc-cycle.rs: main"]}
{"id": "C149", "title": "gc-build is silent unless --verbose is given", "statement": "gc-build prints the counts only when asked to. False: on every line it accepts, --verbose counts as given because it has a default value, so the counts are always printed.", "quantifier": "every line accepted by gc-build", "why_tests_cant": "all lines", "anchors": ["command/src/bin/gc-build.rs: main"]}
{"id": "C150", "title": "Several gc-builds at the same time", "statement": "Any number of gc-builds on the same graph, all reporting success, leave the graph as it was (expected, refuted three times: one that reads just after another has truncated the file stores the empty graph; two that have both read the whole graph can lose vertices when the file is longer than the buffer; if one is killed after its truncation the other reports success and leaves a file that starts with zeros and cannot be read). For graphs whose text fits in the buffer the file is at every moment untouched, empty or a rewriting of the whole graph, and at the end empty or a rewriting. For any size, when all have read before the first truncation: every place of the file holds a zero or what one of them writes there, and at the end the size is right and no zero is left.", "quantifier": "every number of gc-builds, every schedule, every stop point, every hash order and buffering", "why_tests_cant": "all interleavings of read, truncate and write calls", "anchors": ["command/src/bin/gc-build.rs: main", "command/src/graph_utils.rs: save_graph_as_commands", "core/src/format/gcmd.rs: save"]}
{"id": "C151", "title": "Graph files edited by hand", "statement": "A graph file may be edited by hand: empty and comment lines, Windows line ends, a missing last line end, a byte order mark and blanks around a command do not change the graph. True for empty and comment lines inserted anywhere (errors differ in the line number only), for LF or CRLF in text without other carriage returns and for the last line end. False for a byte order mark (line 1 is then an error in both formats), for blanks before or after a gcmd command and before a tgf one, and for a file converted to CRLF twice.", "quantifier": "every file, every inserted line, every digit table", "why_tests_cant": "all file contents", "anchors": ["core/src/format/utils.rs: read_as_commands, read", "core/src/format/gcmd.rs: parse_line, is_comment", "core/src/format/tgf.rs: parse_line, is_comment"]}
{"id": "C152", "title": "A search only sees what its start reaches", "statement": "Two graphs with the same outgoing edges, in the same order, of every vertex reachable from the start give the same results for all iterators and searches from it, and the same flow (value, and flow on these edges, for equal capacities). Commands about vertices that the start does not reach, added at the end of the file, leave the text printed by gc-short-path and gc-csp unchanged, and so does the order in which hash tables are read: two runs on one file print the same path.", "quantifier": "every pair of graphs and files, every start and end, every fuel, queue, cost and hash order", "why_tests_cant": "all graphs and all hash orders", "anchors": ["core/src/iter/iter_breadth.rs", "core/src/iter/iter_depth.rs", "core/src/iter/iter_best.rs", "core/src/iter/iter_best_constraint.rs", "core/src/search/a_star.rs", "core/src/algorithm/shortest_path.rs", "core/src/algorithm/max_flow.rs: max_flow", "command/src/bin/gc-short-path.rs: main", "command/src/bin/gc-csp.rs: main"]}
{"id": "C153", "title": "Reversing every edge turns the answers around", "statement": "A history with every edge turned around, or gc-add with the other value of --reverse, stores the reversed graph: the incoming edges of each vertex become its outgoing ones, in the same order. gc-desc prints the same text about both. gc-short-path from x to y and, on the reversed graph, from y to x print the same cost, or both that there is no path; gc-csp likewise, the ordered vertices being asked for backwards; gc-topo-sort (no self-loops) answers on both or on none, and an order backwards is one of the reversed graph; gc-cycle --hamiltonian finds a cycle on both or on none. Expected of gc-topo-sort on all graphs: refuted for self-loops. Expected of the other questions of gc-cycle on all graphs: refuted; proved on strongly connected graphs and where each vertex lies between one without incoming and one without outgoing edges (--all lists the cycles backwards, --count and --girth are the same, --shortest and --longest have the same length).", "quantifier": "every history, stored graph, start, end and request; every hash order and queue", "why_tests_cant": "all graphs", "anchors": ["core/src/directed_graph.rs", "command/src/bin/gc-add.rs: main", "command/src/bin/gc-short-path.rs: main", "command/src/bin/gc-csp.rs: main", "command/src/bin/gc-topo-sort.rs: main", "command/src/bin/gc-cycle.rs: main"]}
{"id": "C154", "title": "gc-build does not change the printed paths", "statement": "Saving a graph in either format and reading it back keeps, for every vertex, the list of outgoing edges in its order. So gc-short-path and gc-csp print the same path before and after gc-build, and after two histories of invocations that add and remove the same things but call gc-build at different moments. The order of the incoming edges is expected to be kept too: refuted.", "quantifier": "every graph, file, history of invocations, hash order, buffering, queue, start and end", "why_tests_cant": "all histories and all hash orders", "anchors": ["core/src/graph_command.rs: as_commands", "core/src/directed_graph.rs: edges, outbound_edges, inbound_edges", "core/src/format/gcmd.rs: save", "core/src/format/tgf.rs: save", "command/src/bin/gc-build.rs: main", "command/src/bin/gc-short-path.rs: main", "command/src/bin/gc-csp.rs: main"]}
{"id": "C155", "title": "More options, fewer answers", "statement": "A gc-csp line that asks for more (further options, larger lists, narrower bounds) never finds a cheaper path: if it prints a path, the line that asks for less prints one of at most its cost, and if the shorter line reports that there is none so does the longer one; if the shorter line bounds the length both end. For gc-cycle the longer line counts no more cycles, has no shorter shortest and no longer longest cycle, and lists a selection of what the shorter one lists, in the same order. --girth and --hamiltonian are said not to allow constraints: expected to be rejected together, refuted, the line is accepted and the constraints change nothing.", "quantifier": "every graph, every pair of requests, every hash order and queue", "why_tests_cant": "all pairs of command lines", "anchors": ["command/src/bin/gc-csp.rs: main", "command/src/bin/gc-cycle.rs: main", "README.md"]}
{"id": "C156", "title": "The same constraints written differently", "statement": "Writing a list of constraints differently changes nothing: the order, repetitions, And for two entries, and the laws of Boolean algebra outside Not leave every constrained search and cycle filter, step by step, as it is; validate does not see the order. On the command line, --include-all and the like may be given in any order and repeatedly and --exact-length n is --min-length n with --max-length n: gc-csp prints the same path and gc-cycle the same text. Lists that accept the same paths in any other way give the same cost whenever both searches end, and one finds a path if the other does. Expected: then both end. Refuted: MaxLength(1) and Not(MinLength(2)) accept the same paths, but only with the first does the search for an unreachable vertex end.", "quantifier": "every pair of constraint lists, graph, cost, queue, start, end and command line", "why_tests_cant": "all constraint trees and graphs", "anchors": ["core/src/constraint/constraint.rs: check_partial, check_complete", "core/src/constraint/checker.rs: validate", "core/src/iter/iter_best_constraint.rs", "core/src/search/a_star.rs: constrained_shortest_path", "command/src/bin/gc-csp.rs: main", "command/src/bin/gc-cycle.rs: main"]}
{"id": "C157", "title": "Without gc-build, gc-random and gc-clean the commands file only grows", "statement": "While only gc-init, gc-add, gc-delete and programs that read run beside each other, in any order of their steps and killed at any of them, with writes split in any way, the commands file keeps its content and only gets more text after it. If the content ends with a line end, the stored commands stay the first ones, an error that appears later is in a later line, and a file that could not be read stays so, with the same message. Expected without the last line end too: refuted, an addition that reports success turns a stored vertex into an error, or is swallowed by a comment.", "quantifier": "every number of processes, every schedule, every stop point, every buffering and file content", "why_tests_cant": "all interleavings and kill points", "anchors": ["command/src/graph_utils.rs: init, apply_graph_commands, with_lock", "core/src/format/utils.rs: read_as_commands", "command/src/bin/gc-init.rs: main", "command/src/bin/gc-add.rs: main", "command/src/bin/gc-delete.rs: main"]}
{"id": "C158", "title": "A session of command lines, from the words typed to the answer printed", "statement": "Starting in a directory without a graph, any sequence of lines of gc-init, gc-add, gc-delete, gc-build, gc-clean --force and gc-random --force that the help texts allow, with ids as values, all for one directory, and with a number of random edges that can be drawn, succeeds line by line and stores what the help texts say, whatever came before: after gc-init the empty graph (or the one that was there), after gc-add the described vertices and edges as well, after gc-delete without them, after gc-build the same, after gc-clean none, after gc-random the edges of the random numbers drawn and their ends. A gc-desc, gc-short-path, gc-csp, gc-cycle or gc-topo-sort line typed then prints the answer for that graph, whatever its options.", "quantifier": "every sequence of lines in every spelling, every sequence of random numbers, every hash order, buffering, queue and version of the argument parser", "why_tests_cant": "all sessions of any length", "anchors": ["command/src/bin/gc-init.rs: main", "command/src/bin/gc-add.rs: main", "command/src/bin/gc-delete.rs: main", "command/src/bin/gc-build.rs: main", "command/src/bin/gc-clean.rs: main", "command/src/bin/gc-desc.rs: main", "command/src/bin/gc-random.rs: main", "command/src/bin/gc-short-path.rs: main", "command/src/bin/gc-csp.rs: main", "command/src/bin/gc-topo-sort.rs: main", "command/src/bin/gc-cycle.rs: main", "command/src/graph_utils.rs", "command/src/arg_utils.rs"]}
{"id": "C159", "title": "What several users are told at once is explained by one order of whole requests", "statement": "Any number of users call the functions behind gc-init, gc-add, gc-delete and the query tools, each one call after another, on a directory without a graph or whose commands file can be read and ends with a line end. At every moment there is an order of whole requests such that every answer given so far is the answer of that point of the order, every finished request is in it exactly once, one in progress (or killed) at most once, and the file holds exactly the stored requests in that order. The order of a later moment extends that of an earlier one, so a request answered before another starts comes first. Requests of at most 8192 bytes of text. Expected for larger ones too: refuted, a reader may be told of half a request. Expected that a failed status means nothing was stored: refuted.", "quantifier": "every number of users, every list of requests, every schedule and kill point", "why_tests_cant": "all interleavings of all request lists", "anchors": ["command/src/graph_utils.rs: apply_graph_commands, with_lock, load_graph", "core/src/format/gcmd.rs: add_commands, read"]}
{"id": "C160", "title": "gc-csp and gc-cycle on every command line", "statement": "Every combination of option values of gc-csp and gc-cycle is understood in exactly one way: an option whose value is not well formed counts as absent. With that reading, gc-csp prints the constraints it applies and then a shortest walk that obeys them, or that there is none, and is right whenever it prints; --max-score is applied as a lower bound and a vertex repeated in --ordered counts at its last place. It ends with an answer if and only if there is such a walk or the walks allowed by the forbidding options are of bounded length. gc-cycle prints, for its action, exactly the cycles met by its search that obey the options in the same sense. For lines without these two oddities this is what the options say.", "quantifier": "every value of every option (also malformed, repeated and contradictory), every loadable graph, hash order and queue", "why_tests_cant": "all command lines and all graphs", "anchors": ["command/src/bin/gc-csp.rs: main, shortest_path_with_constraints, build_all_constraints", "command/src/bin/gc-cycle.rs: main", "command/src/arg_utils.rs"]}
{"id": "C161", "title": "Users that make the graph themselves", "statement": "Several users call gc-init, one-write updates and queries, one call after another, on a directory with or without a graph; every system call may be interleaved with those of the others and anybody may be killed. gc-init never fails. Once some gc-init has been answered the commands file stays, every update started after that is stored, and every query started after that gets a graph. An update reported as done is in the file at every later moment. As long as there is no file every update fails and every query gets an error.", "quantifier": "every number of users, list of requests, schedule, killed process, starting directory and way of reading", "why_tests_cant": "all schedules", "anchors": ["command/src/graph_utils.rs: init, with_lock, load_graph, apply_graph_commands, touch", "command/src/bin/gc-init.rs: main", "command/src/bin/gc-add.rs: main"]}
{"id": "C162", "title": "Nobody waits for anybody, and everybody is answered", "statement": "Several users call gc-init, updates and queries, one call after another, on any directory, at the same time. A user is answered after a fixed number of own steps, whatever the others do or leave undone (they may be killed): six for gc-init, six and one per write for an update (seven in all up to 8192 bytes), three for a query that reads the file in one step, and at most three plus its read calls otherwise. No schedule goes on for longer than all requests together, and it stops only when every request of every user is answered; a reader that reads piece by piece needs at most two read calls per character the file ever has, and one more (the size of the file when it starts is no bound: the others may keep adding). When all are done on a directory that had a graph, the file holds the updates of all users (one write each), each exactly once and every user's in the order given.", "quantifier": "every number of users, list of requests, schedule, killed process and starting directory", "why_tests_cant": "all schedules", "anchors": ["command/src/graph_utils.rs: init, with_lock, lock, unlock, load_graph, apply_graph_commands", "core/src/format/utils.rs: read", "core/src/format/gcmd.rs: add_commands"]}
{"id": "C163", "title": "Which flow max_flow returns", "statement": "Take the paths without a repeated vertex from start to end, the shorter ones first and those of one length in the order in which their edges were added. max_flow gives each in turn as much as all its edges still have left, and returns exactly the resulting flow and its value, for all u64 capacities and start different from end; if the value is no u64 the checked build panics and the optimised one returns it modulo 2^64.", "quantifier": "every graph and history of commands, all capacities, every pair of vertices", "why_tests_cant": "all graphs and capacities", "anchors": ["core/src/algorithm/max_flow.rs: max_flow, find_augmenting_path, AugmentingPathIter::next, update_flow, residual_capacity"]}
{"id": "C164", "title": "In which order the cycles are listed", "statement": "The cycle iterator goes through the vertices without entering edges (or, if there is none, takes the first vertex) from the last to the first, and at each vertex through the edges from the one added last to the one added first, following every walk until it comes back to a vertex of its own; it returns the cycle closed, beginning with its least vertex, the first time it is met. Nothing else is in the list. gc-cycle answers all its questions about the cycles in that order. When exactly one vertex has no edge into it, gc-cycle prints the same text in every process, whatever the options.", "quantifier": "every graph and history of commands, every order of the hash map, every argument of gc-cycle", "why_tests_cant": "all graphs and histories", "anchors": ["core/src/iter/iter_cycle.rs: CycleIter::next, find_starting_edges, extract_canonical_cycle_from_last", "command/src/bin/gc-cycle.rs: main"]}
{"id": "C165", "title": "Which topological order is returned", "statement": "topological_sort lists at each point the vertex that has been ready for the longest time: at first those without entering edges, in the order in which the vertices are gone through; then each vertex when the last edge into it is crossed off, the edges of a vertex being crossed off in the order in which they were added when it is listed. There is exactly one such list, and it is the answer whenever there is one (C52). gc-topo-sort prints it, and with at most one vertex without entering edges every process prints the same text.", "quantifier": "every graph and history of commands, every order of the hash map", "why_tests_cant": "all graphs and histories", "anchors": ["core/src/algorithm/topo_sort.rs: topological_sort, find_start_vertices", "command/src/bin/gc-topo-sort.rs: main"]}
{"id": "C166", "title": "The paths of one answer form a tree", "statement": "Take the answer of one call of bellman_ford, spfa, dag_shortest_paths or dag_longest_paths. Follow the path listed for some vertex up to any vertex x on it: what was followed is the very path listed for x. So the listed paths are the branches of one tree even where several paths have the same weight, and none of them goes twice through a vertex, even past closed walks of weight 0.", "quantifier": "every graph, weight function and source; acyclic graphs without self-loops for the dag_ functions", "why_tests_cant": "all graphs and weights, ties included", "anchors": ["core/src/algorithm/shortest_path.rs: bellman_ford, spfa, dag_shortest_paths", "core/src/algorithm/longest_path.rs: dag_longest_paths"]}
{"id": "C167", "title": "What the error of validate says", "statement": "When validate refuses a list of constraints, its text gives the first reason there is: the vertices a path would have to pass and avoid, each named once and none left out; the same for edges; both cycle constraints or neither; all the bounds of a kind that was given several times, in their order; or the two bounds that cross. There is no text exactly when the list is accepted (C34).", "quantifier": "every list of constraints, every order of the hash sets", "why_tests_cant": "all lists, all hash orders", "anchors": ["core/src/constraint/checker.rs: validate, check_vertex_inclusion_exclusion, check_edge_inclusion_exclusion, check_cycle_inclusion_exclusion, check_min_max_length, check_min_max_score"]}
{"id": "C168", "title": "Undoing a whole history", "statement": "If every command of a history can be undone by its revert where it was applied (C11), then reverting the last k commands, the last one first, shows again the vertices and edges there were before them, for every k; the first one first does not do. Whatever the history, also with commands that revert does not undo, the commands a user can write down before each one from contains_vertex, contains_edge, inbound_edges and outbound_edges restore the graph.", "quantifier": "every reachable graph, every list of commands, every k", "why_tests_cant": "unbounded histories, all states", "anchors": ["core/src/graph_command.rs: GraphCommand::revert/apply_commands", "core/src/directed_graph.rs: inbound_edges, outbound_edges"]}
{"id": "C169", "title": "Deleting what an answer does not use", "statement": "When vertices and edges are deleted but all edges of the path printed by gc-short-path or gc-csp are still there, the same cost is printed, for a path of both graphs; where there was no path there is none; bellman_ford gives each vertex whose path is still there the same score and reaches nothing new. Also expected: the same path is printed (refuted: among paths of the same cost the one taken depends on the other entries of the heap).", "quantifier": "every two stored graphs of which one contains the other, every request, every weights without overflow, every hash and queue order", "why_tests_cant": "a relation between two answers for all pairs of graphs", "anchors": ["command/src/bin/gc-short-path.rs: main", "command/src/bin/gc-csp.rs: main", "core/src/algorithm/shortest_path.rs: bellman_ford"]}
{"id": "C170", "title": "What a failing program says", "statement": "A program leaves a message on the error stream exactly when it ends with a failure status. When the graph file has a line that is no command, comment or empty line, the message of gc-build, gc-desc, gc-topo-sort, gc-cycle, gc-short-path and gc-csp has the number of the first such line (gc-desc also the path). What gc-clean and gc-random say has the path. Also expected: the line is named when its id is no u64 (refuted: the message is the same wherever the line stands), and a bad id on the command line is named or its option is (refuted: gc-add and gc-delete give the parser's error alone; gc-short-path and gc-csp say that an unwrap failed).", "quantifier": "every file content, every directory state, every command line, every release of the standard library (the texts of its errors are parameters)", "why_tests_cant": "all files and all positions of the first faulty line", "anchors": ["command/src/graph_utils.rs: load_graph", "core/src/format/utils.rs: read_as_commands", "command/src/bin/gc-build.rs: main", "command/src/bin/gc-desc.rs: main", "command/src/bin/gc-add.rs: main", "command/src/bin/gc-short-path.rs: main"]}
{"id": "C171", "title": "Joining graph files", "statement": "One graph file put behind another (cat a b) is read as the graph with the vertices and edges of both: for any two tgf files, for gcmd files when the second only adds, and so for everything the library saves, when the first ends with a line feed. Also expected: for files with removals (refuted: the second takes away from the first), and without the line feed (gcmd: always reported, with the number of the line; tgf refuted: two ids become one and nothing is reported).", "quantifier": "every pair of file contents, every pair of graphs, every pair of ids", "why_tests_cant": "all pairs of files", "anchors": ["core/src/format/tgf.rs: read, save, parse_line", "core/src/format/gcmd.rs: read, save, parse_line", "core/src/format/utils.rs: read_as_commands"]}
{"id": "C172", "title": "Queries whose output is not read to the end", "statement": "When the standard output of gc-short-path, gc-csp, gc-topo-sort, gc-cycle or gc-desc stops taking lines (a closed pipe, a full disk), the lines taken are the first lines of the full answer, the program ends with a failure, and nothing stored is changed, whether it is killed or not. A query whose ids or graph cannot be read writes nothing. gc-cycle --all read by someone who stops after k lines shows the lines of --take-n k and ends. gc-csp shows the constraints it was given while it searches, also when the search never ends.", "quantifier": "every query, every set of lines that can be written, every stored graph, every moment of the search, every k", "why_tests_cant": "all points at which a reader stops", "anchors": ["command/src/bin/gc-short-path.rs: main", "command/src/bin/gc-csp.rs: main, shortest_path_with_constraints", "command/src/bin/gc-topo-sort.rs: main", "command/src/bin/gc-cycle.rs: main", "command/src/bin/gc-desc.rs: main"]}
{"id": "C173", "title": "Calls that the operating system refuses", "statement": "Each call that makes a directory, opens, reads or removes something may be refused (permissions, a read-only file system, no free descriptor). Then: a request that returns Ok is stored and leaves no lock; gc-init never destroys anything, and success means that there is a commands file, and one whose directories are made half-way only is reported and can be repeated; a gc-build that fails has changed nothing; gc-clean reports success only when graph and lock are gone; gc-random reports success only when it has done what it does when nothing is refused; the lock stays only if its removal was refused; the stored graph after any history of such invocations is that of those answered with success and perhaps some others; in a directory that can only be read nothing is changed and every query is answered; each option of gc-add and gc-delete is stored or not as its own calls are granted. Also expected: that gc-add reports what was refused (refuted: its status never depends on it), that an error means that nothing is stored (refuted when only the lock cannot be removed), that a failing gc-random keeps the graph (refuted).", "quantifier": "every combination of refused calls at every step of every history, every stored graph, every request", "why_tests_cant": "all combinations of refused calls, all histories", "anchors": ["command/src/graph_utils.rs: with_lock, lock, unlock, init, clean, load_graph, save_graph_as_commands, touch", "core/src/format/gcmd.rs: save, add_commands", "command/src/bin/gc-add.rs: main", "command/src/bin/gc-build.rs: main", "command/src/bin/gc-clean.rs: main", "command/src/bin/gc-random.rs: main", "command/src/bin/gc-init.rs: main"]}
{"id": "C174", "title": "A graph at any place of a file system", "statement": "With --path pointing anywhere in a tree of directories and files, each tool, each crash and each interleaving of processes behaves as if the graph were alone: it changes nothing outside <path>/lock and <path>/.graph except that missing directories of the path are made; graphs in different directories do not disturb each other, whatever the order or interleaving, and each stored graph is that of the invocations on it. If a part of the path is a file, nothing is changed and the calls report it. Also expected: that any two different directories will do (refuted: a graph made in <path>/lock stops all requests on the graph at <path>, and gc-clean at <path> removes a graph made in <path>/.graph).", "quantifier": "every tree of files, every path, every tool with every argument, every crash point, every number of processes in every number of directories in every interleaving, every history over several directories", "why_tests_cant": "all trees of files, all paths, all interleavings", "anchors": ["command/src/graph_utils.rs: touch, lock_path, root_path, command_path, with_lock, init, clean, load_graph, save_graph_as_commands", "core/src/format/gcmd.rs: save, add_commands", "command/src/bin/gc-add.rs: main", "command/src/bin/gc-delete.rs: main", "command/src/bin/gc-build.rs: main", "command/src/bin/gc-clean.rs: main", "command/src/bin/gc-random.rs: main", "command/src/bin/gc-init.rs: main"]}
{"id": "C175", "title": "Ways to write the path", "statement": "Whatever text is given with --path, the lock, the graph directory and the commands file are those of the directory the text leads to: a graph made under one spelling (x, x/, ./x, x//, x/.) is found under every other one, an empty path or . is the current directory, and every directory can be written, from the top or from the current directory. The calls of the tools on a path given as text are those on the place it leads to.", "quantifier": "every text of the path (without ..), every current directory, every list of names", "why_tests_cant": "all texts", "anchors": ["command/src/graph_utils.rs: lock_path, root_path, command_path, touch, lock, unlock, init, clean, load_graph"]}
{"id": "C176", "title": "Whatever is refused, cut short, interleaved or stopped", "statement": "Let the operating system refuse any call of any tool, take any part of any write, run the tools in any interleaving and kill them at any point. A request then leaves the commands file as it was, with the text of the request up to some character behind it; a history of such requests leaves the beginnings of their texts one behind the other, and so do the options of one gc-add or gc-delete, each whole when its own calls are granted and answered; gc-build and gc-random report each refusal; gc-build leaves the old file or the beginning of the new text; without gc-build, gc-random and gc-clean nothing stored is lost; and once calls are allowed again, gc-init succeeds and keeps the file, and gc-clean and gc-init give the empty graph without a lock.", "quantifier": "every grant or refusal of every call, every answer of every write, every interleaving, every crash point, every history of requests", "why_tests_cant": "all refusals, schedules, crash points and histories at once", "anchors": ["command/src/graph_utils.rs: lock, unlock, with_lock, init, clean, load_graph, save_graph_as_commands, apply_graph_commands", "core/src/format/gcmd.rs: save, add_commands", "command/src/bin/gc-add.rs", "command/src/bin/gc-delete.rs", "command/src/bin/gc-build.rs", "command/src/bin/gc-random.rs"]}
{"id": "C177", "title": "Holding the lock over several library calls", "statement": "A program that wraps calls of the library (add or remove vertices or edges) in with_lock is told Ok when all of them succeeded. Uses may be nested and repeated in any way.", "quantifier": "every nesting and sequence of with_lock and of the adding and removing calls, every stored file, every way of buffering", "why_tests_cant": "all shapes of use, not only the ones of the tools", "anchors": ["command/src/graph_utils.rs: with_lock, lock, unlock, add_vertex, add_vertices, add_edge, add_edges, remove_vertex, remove_vertices, remove_edges, apply_graph_commands", "core/src/format/gcmd.rs: add_commands"]}
{"id": "C178", "title": "What is_locked says", "statement": "is_locked tells whether somebody holds the lock: true inside a with_lock block, false when nobody is inside; a program that asks first and proceeds on false has the graph for itself.", "quantifier": "every number of processes, every interleaving, every block that leaves the lock file alone, every crash point", "why_tests_cant": "schedules and crashes", "anchors": ["command/src/graph_utils.rs: is_locked, with_lock, lock, unlock"]}
{"id": "C179", "title": "How much a search keeps in memory", "statement": "At every moment of a search the number of entries it keeps is polynomial in the size of the graph: one for each vertex (and one more) for breadth-first and depth-first traversal and for A* whatever the scores, V * V + 1 for the depth-first enumeration of paths, V * V + V + 1 and one for each cycle returned so far for the cycle iterator (also within one call of next); for the breadth-first enumeration of paths (expected, refuted: at least 2^k on the acyclic ladder of 4k edges).", "quantifier": "every graph, every start, every score, every queue, every moment of the search", "why_tests_cant": "all graphs and moments; exponential growth only shows on families of graphs", "anchors": ["core/src/iter/iter_breadth.rs: next", "core/src/iter/iter_depth.rs: next", "core/src/iter/iter_best.rs: next", "core/src/iter/iter_cycle.rs: next, find_starting_edges", "core/src/iter/iter_datastructure.rs: push, pop"]}
{"id": "C180", "title": "The k cheapest paths", "statement": "A program that reads the constrained search further, keeping the items that end at the target and meet the constraints, until it has k of them: it gets k cheapest such walks, each once, in order of cost, or all of them if there are fewer; it gets k if there are k and every edge costs something, and gets an answer for every k if the length is bounded or cycles are excluded; one path is what constrained_shortest_path answers; asking for more does not change the first ones. The same with the breadth-first enumeration of paths gives the k shortest simple paths. The search behind A* never gives a second path to a vertex.", "quantifier": "every graph, start, target, list of constraints, score function that does not decrease along walks, every number k, every queue that pops a least element", "why_tests_cant": "all graphs, scores and k; that nothing cheaper comes later is a statement about all walks, of which there may be infinitely many", "anchors": ["core/src/iter/iter_best_constraint.rs: constrained_best_iter_from, next", "core/src/iter/iter_breadth.rs: bfs_path_iter_from", "core/src/iter/iter_best.rs: best_iter_from", "core/src/search/a_star.rs: constrained_shortest_path"]}
{"id": "C181", "title": "Paths with .. and symbolic links", "statement": "However --path is written, with .. or through symbolic links, as long as it leads to the directory d (and not by way of d's own lock file or .graph), each tool does and answers exactly what it does with the plain name of d: run alone, killed anywhere, or interleaved with tools of other users who write the path differently from other current directories. A link leads where its text leads; p/.. leads above the directory that p leads to. A user might expect this of every path that leads to d; it fails for .graph/.. (gc-clean removes the graph, exits with failure and leaves its lock), and missing/.. leads nowhere for queries although gc-init accepts it and makes the directory missing.", "quantifier": "every tree of files, every set of symbolic links (none of them named like the files of the graph), every current directory and text of --path, every tool and arguments, every crash point and interleaving", "why_tests_cant": "all trees, links, spellings and schedules; each call looks the path up again in a tree that the tools are changing", "anchors": ["command/src/graph_utils.rs: touch, lock, unlock, with_lock, init, load_graph, save_graph_as_commands, clean, apply_graph_commands", "command/src/bin/gc-init.rs: main", "command/src/bin/gc-clean.rs: main"]}
{"id": "C182", "title": "Comparing and collecting vertices, edges, cycles and paths", "statement": "The orders of vertex ids, edges and cycles are total and agree with ==, so that a BTreeSet of them, or sort and dedup, hold exactly the values put in, each once, in increasing order. Cycles compare as vertex lists: rotations of a cycle are different, but a set of canonical forms has one entry per cycle up to rotation. A user would expect the same of scored paths. It fails: their order is total but only sees the score, so that two different paths of the same cost are not == but compare as Equal; a BTreeSet keeps only the first path of each cost, and sort and dedup leave repetitions.", "quantifier": "every list of vertex ids, edges, cycles and scored paths", "why_tests_cant": "all values; a test with paths of different costs does not show it", "anchors": ["core/src/path.rs: ScoredPath, Path", "core/src/graph.rs: VertexId, Edge", "core/src/iter/iter_cycle.rs: Cycle, canonical"]}
{"id": "C183", "title": "Converting between the formats, and files given to the wrong reader", "statement": "Saving a graph and reading it back any number of times, each time as gcmd or as tgf, always succeeds and keeps its vertices, its edges and the order in which the edges leave each vertex. No file is misread: no line is accepted by both readers, a file with at least one line that is neither empty nor a comment is reported by at least one of them, with the number and the text of that line, and a file that both accept says nothing and gives the empty graph. A saved graph that is not empty is always refused by the reader of the other format, at line 1.", "quantifier": "every graph built through the API, every list of conversions, every hash order at every step, every content of a file", "why_tests_cant": "all graphs, chains of conversions and file contents; a test round-trips a few files once", "anchors": ["core/src/format/gcmd.rs: read, save, parse_line", "core/src/format/tgf.rs: read, save, parse_line", "core/src/format/utils.rs: read"]}
{"id": "C184", "title": "tgf files whose saving was cut short", "statement": "Whatever the disk answers to the write calls of tgf save, and whenever the process is killed, the file holds the text of the graph up to some byte; a reported failure has a reason; Ok means that at most one buffer is missing, and nothing is missing if the disk takes something of each call. Every such part of a file reads without error or panic, as the commands of its whole lines and at most one more; the graph it gives is part of the saved one, except for at most one id, an id of the graph cut short, as a vertex and the target of one edge. A user would expect that Ok means that the graph is in the file, and that a file that was cut short is noticed or holds nothing that was not saved. Both fail.", "quantifier": "every graph built through the API, every answer of the disk, every kill point", "why_tests_cant": "all graphs, disks and kill points", "anchors": ["core/src/format/tgf.rs: save, read, parse_line"]}
{"id": "C185", "title": "Trying again", "statement": "A user who repeats each invocation until it succeeds, after any refused calls and after being killed anywhere, ends with the graph of the same invocations made once each. The same holds for gc-add and gc-delete with all their options, of which earlier attempts may have stored any. Several users who only add may repeat anything in any order. A user would also expect this of requests of any size, and of additions repeated later; a large request that was killed between two writes and is then repeated with success makes the graph unreadable, and an addition repeated after somebody removed it adds it again.", "quantifier": "every history, every list of invocations, every number of attempts, every combination of refused calls, every kill point, every command line of gc-add and gc-delete", "why_tests_cant": "all numbers of attempts with all refusals and kill points", "anchors": ["command/src/graph_utils.rs: apply_graph_commands, add_vertices, add_edges, remove_vertices, remove_edges, with_lock", "core/src/format/gcmd.rs: add_commands", "command/src/bin/gc-add.rs: main", "command/src/bin/gc-delete.rs: main"]}
{"id": "C186", "title": "The unit of the weights", "statement": "Weights given in another unit (k times each, k positive) give the same paths with k times the scores, for shortest and longest paths in acyclic graphs, for spfa and for Bellman-Ford, which also reports a negative cycle exactly when it did; capacities given in another unit give k times the maximal flow on the whole and on every edge. A* and the constrained search give the same path too when costs, estimates and the bounds on the score are in another unit, and whenever the scores order the paths alike. The search with the larger numbers may instead panic with an overflow; otherwise both end or both run on. A user would expect this of every k; for a k that divides the largest i64 a vertex at exactly that distance is lost.", "quantifier": "every graph, every weight or capacity function, every positive factor, every start and target", "why_tests_cant": "all weights and all factors", "anchors": ["core/src/algorithm/shortest_path.rs: dag_shortest_paths, bellman_ford, spfa, current_score_of_vertex", "core/src/algorithm/longest_path.rs: dag_longest_paths", "core/src/algorithm/max_flow.rs: max_flow", "core/src/search/a_star.rs: shortest_path, constrained_shortest_path"]}
{"id": "C187", "title": "When the schedule does not matter", "statement": "Any number of processes add to and remove from one graph file at the same time, each request reaching the file in at most one write. If no request removes what another one adds, then whatever the schedule, once all have ended the graph is the one that the requests give when made one after the other in any listed order; requests that all add, or that all remove, are such. If some of the processes are killed on the way, the graph is that of some of the requests, all those among them whose process has ended. As soon as one of two single commands removes what the other adds, two schedules of them give different graphs.", "quantifier": "every number of processes, every request, every schedule of their file-system calls, every graph file that ends with a line break", "why_tests_cant": "the schedules of all processes", "anchors": ["command/src/graph_utils.rs: apply_graph_commands, add_vertices, add_edges, remove_vertices, remove_edges"]}
{"id": "C188", "title": "What may be changed in a sorted graph", "statement": "After an edge between two different vertices is added to a graph without self-loops, the topological sort succeeds exactly when it did before and the start of the edge cannot be reached from its end. Every edge that goes forward in the order gc-topo-sort printed can be added, also all of them together, and gc-topo-sort prints an order again. Removing edges and vertices never takes the order away.", "quantifier": "every graph, every added edge, every set of removed edges and vertices, every order in which the processes go through their hash maps", "why_tests_cant": "all graphs and all changes", "anchors": ["core/src/algorithm/topo_sort.rs: topological_sort", "command/src/bin/gc-topo-sort.rs: main"]}
{"id": "C189", "title": "All at once or one by one", "statement": "However additions are grouped into invocations of gc-add, in whatever order the invocations are made and however often one is repeated: if the same vertices and edges are asked for on the whole, the graph is the same, namely the old one with all of them. The same holds for removals with gc-delete. Such a sequence of well-formed invocations always runs through with success.", "quantifier": "every stored graph, every sequence of invocations, every way to group and order them", "why_tests_cant": "all groupings, orders and repetitions", "anchors": ["command/src/bin/gc-add.rs: main", "command/src/bin/gc-delete.rs: main"]}
{"id": "C190", "title": "Several users at the same time", "statement": "Any number of users run gc-add at the same time on one graph, each with any well-formed options, where each option's request reaches the file with one write. Whatever the schedule, when all have ended all report success and the graph is the old one with everything that anybody asked for; at every moment before, whoever has been killed, what is read lies between the two and contains all that the users whose process has ended wanted; the same for gc-delete and removals, and for users of both at the same time if nobody removes what another adds. More generally, for processes that make any requests one after the other: at every moment of every schedule, whichever of the processes have been killed, the graph can be loaded and is that of the old commands followed by whole requests, of each process the first so many in its order, and all of them if it has ended; when all have ended no lock is left, also if there was one before; no schedule goes on for ever and from every moment all can come to their end; if none removes what another adds, the order does not matter.", "quantifier": "every stored graph, every number of processes, every list of requests or options for each, every schedule", "why_tests_cant": "all schedules of all numbers of processes with several requests each", "anchors": ["command/src/bin/gc-add.rs: main", "command/src/bin/gc-delete.rs: main", "command/src/graph_utils.rs: with_lock"]}
