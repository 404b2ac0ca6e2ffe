# Design: a Rocq model of graph-commands

Target: christheblog/graph-commands (Rust), read as text in `/repo`.
Prover: Rocq/Coq 8.16.1, standard library only.
Everything lives in `rocq/theories`, logical name `Verif`.

## 1. What is proved

Each property of `properties.jsonl` is a theorem about a Gallina model of the
code, quantified over all inputs, states, histories, hash orders, tie-breaks
and (for the file layer) schedules and crash points.  There is no bounded
exploration; `Example`s only show that hypotheses can be met.

A statement that users would expect but that the code does not satisfy is kept
in `properties.jsonl` as they would state it.  The model then carries a theorem
`..._refuted`, which exhibits a concrete reachable counterexample, and where
possible the strongest true version, proved for all inputs.  Such claims have
status `partial` in `MANIFEST.json`, with a note starting with `REFUTED`.

## 2. How the code is modelled

| Rust | Model |
|------|-------|
| `VertexId(u64)` | `N`; the 64-bit range is a hypothesis only where it matters (text formats) |
| `Edge(VertexId, VertexId)` | `N * N` |
| `HashMap<K, V>` | association list without repeated keys; list order is the iteration order |
| random hash order | relation `built`: a graph may be replaced by any permutation of its association list between two operations, so every theorem about a `built` graph holds for every hash order |
| `Vec`, `VecDeque`, slices | `list` |
| `HashSet` | list used through membership and length only |
| `BinaryHeap` | modelled in `Heap.v`; the search theorems use any `pop` function that removes *some* least (greatest) element; theorems hold for each such function, hence for every tie-break |
| panics (`unwrap`, `expect`, index, overflow in debug) | explicit `Panic` result |
| loops without structural bound | fuel; exhaustion is an explicit `OutOfFuel` result; termination theorems give a fuel that suffices |
| iterators | a `next : state -> option (item * state)` step; `collect` with fuel |
| `i64` weights | `Z` with checked addition (overflow = `Panic`); sentinel `i64::MAX` explicit; `Release.v` has the same functions with wrapping arithmetic |
| text files | lists of Unicode code points; `Utf8.v` models bytes, decoding and the panic on a line that is not UTF-8, and carries the text theorems over to bytes |
| `\d` in the regex crate | a parameter `nd : N -> bool` that agrees with `0..9` below 128; `\s` is the White_Space table |
| file system | a record with the graph directory, the commands file and the lock file; each system call is one atomic step; a crash during a write leaves any byte prefix of the data |

Definitions in the model cite file and lines of `/repo`.  Simplifications are
stated in the same comment.

Specifications (`Spec.v`) never mention model helpers: walks, simple paths,
reachability, cycles, weights, flows and cuts are defined on an abstract graph
given by two predicates `V : N -> Prop` and `E : N -> N -> Prop`.

## 3. Files

See section 8.

## 4. Plan per property

* C01, C02, C05, C07, C08: invariant `wf` (both copies of each edge agree,
  no repeated key, no repeated edge) preserved by all mutations; refinement to
  the abstract pair of sets by induction on the history.
* C03 refuted by one self-loop; C04: counting argument, each non-loop edge is
  stored twice, a loop once.
* C06, C09, C12 refuted by concrete histories; C11 by the refinement of C01.
* C10: induction over the command list with the refinement of C01.
* C13, C14, C15, C20: a hand-written matcher per regular expression, proved
  equivalent to the existence of a decomposition of the line; decimal printing
  and parsing proved inverse.
* C16, C17, C18, C19: line splitting, then induction over the lines.
* C21 to C28, C77, C78: file system model; sequential histories by induction,
  interleavings by an explicit small-step relation, crashes by byte prefixes.
* C29: induction over the command list.
* C30, C31, C32, C33: structural induction on paths and constraint trees.
* C34, C35, C36: case analysis on the list folds.
* C37: invariant relating container and abstract content.
* C38, C39, C40, C43: invariants of visited-set searches; C41 refuted.
  `PropVisit.v` describes the whole output of each traversal: the queue is at every
  moment the list of vertices (or paths) the specification calls waiting (or open).
* C42, C63: the frontier holds disjoint subtrees of the tree of simple paths.
* C44, C45: from C43; unit cost gives distance order; C46 refuted, proved
  for order-preserving scores by the invariant that every queued path is least.
* C47, C48, C50: every satisfying walk has a prefix in the queue; C49 refuted
  by a divergence proof.
* C51: Kahn invariant; C52 refuted by a self-loop.
* C53, C54, C55: relaxation invariant over the topological order.
* C56, C57, C58: relaxation invariants, pass-indexed for Bellman-Ford,
  potential argument for SPFA termination.
* C58, C104: every improvement lowers a 64-bit score, so SPFA ends.
* C59, C61: each augmentation keeps feasibility; value increases; cut bound by
  summing conservation.  C60, C62 refuted.  C117: each round puts its amount on at most k
  edges, and the saturated edges contain a cut.  C125: max-flow min-cut on the returned flow; with one edge into
  (out of) each inner vertex a residual path can be replaced by one without backward steps.  C126 refuted: the
  first row is the only shortest path, and it meets every other path.
* C127: a visited-set search yields each reachable vertex once.  C128 refuted: a search without one pops everything
  that can be built before it gives up, and the ladder with k rungs has 2^k climbs.
* C129 refuted: every improvement in SPFA stores a new simple path, which bounds the turns; in the layered graphs of
  Cascade.v the vertices of layer k leave the queue in the order of the ruler sequence of length 2^(k-1).
* C130 to C135 compare two answers.  C130, C131: the score of a vertex is the least total, which the edges alone
  determine; refuted for panics and for max_flow, which take the first of what the stored order offers.  C132 refuted
  by an edge that opens a shorter but worse path.  C133: shortest path and cheapest wanted walk; refuted where the
  search goes round a cycle for ever.  C134: a closed walk contains a simple cycle; refuted by what each search does
  not look at; exact on every graph (C134_exact) since a graph whose only cycle is one self-loop has its vertices below
  sources.  C135: a Hamiltonian cycle is a Hamiltonian path with a closing edge.
* C136: induction on the log from its end; commuting adjacent commands, then the projection lemma for reorderings.
  C137: exact conditions on sets.  C137, C138, C139 refuted by small graphs.  C138: counting.  C139, C140: distances
  and cycles of a subgraph.
* C141 refuted: nothing is synced.  Induction on the invocations up to the call after which nothing was stored; a
  character 0 is in no line that the parser accepts.
* C142: a simulation step by step between the run on the file and the run on the renamed file (queues, binary heap and
  visited sets commute with the renaming); for gc-cycle a bijection between the cycles seen.  The edge options refuted.
* C64: rotation lemmas.  C65, C66, C68, C69: invariants of the cycle search.
  C67, C70 refuted, true restrictions proved.
* C71, C72: list inductions.  C73: invariant of the generator loop for every
  random stream; C74, C75 refuted.  C118: the edges are those of the draws so far.
* C76: minimum and maximum of a list; the counts by C04.
* C84 to C91: the programs are composed from the parts above; what an option
  denotes is specified apart from its parser; C91: a search that gives up has
  tried every allowed walk.
* C92: for every single constraint, the partial check answers yes exactly when
  some extension passes the full check; refuted for combinations.
* C93: the edges stored at a vertex are a filter of one global insertion order.
* C94, C95: invariants over every schedule, induction over histories with crashes.
* C96 to C99: every write of the buffered writer carries whole pieces; a prefix of
  the pieces is read line by line.  C98 refuted by a request that fills the buffer
  right before a line feed.
* C100, C101, C102: decoding proved equivalent to RFC 3629 by arithmetic on the
  groups of bits; a line feed byte is always a line feed; every step of every tool
  writes ASCII.
* C103: each function of the optimised build simulates the checked one up to a
  panic.  C104: relaxation invariant modulo 2^64.  C105: the rounds of the flow
  loop do not depend on the reported value, only on the table.
* C106: simulation over every schedule: what was read is a prefix of a file that
  only grows.  C107 refuted by a schedule; what is read beside gc-build is a splice of the
  old and the new text, by an invariant over every schedule.
* C108: the checked search steps like the exact one until it crashes, and a crash
  exhibits the path whose score overflows.  C109 refuted by a graph of four edges.
* C110: kill points of gc-random, by cases on the call that was next.  C111: an
  invariant that every step of every tool keeps.  C112: gc-build with its output
  runs like gc-build.
* C113, C114, C120: induction over the pieces: written, buffered and remaining text add up
  to the whole; the buffer is bounded by its capacity.  Refuted on a full disk.
* C115: simulation between the two file models.  C116: writers to a file without a
  name keep what the names show; refuted by a schedule.
* C119: the file is what gc-build has written so far followed by the end of what was
  appended since the truncation, by an invariant over every schedule.
* C121: the options are decoded, then C118 for the generator and C83 for the storing;
  refuted by random numbers that give two components, and by ascending edges.
* C122: by cases on the first line that cannot be printed; refuted by the last one.
* C123: the finer programs run like the coarser ones; kill points by cases.  C124: an
  invariant over every schedule: as long as the empty directory is there and some gc-clean is
  past its listing, another one is about to remove it.

* C125 to C142 are described in the files of section 8.
* C143: the loop of the parser against an inductive definition of written lines, in both
  directions, by induction over the words.  C144 follows, because a written line determines its
  meaning up to the order of its uses.  C145 and C146 follow from the number of values and the first letters
  that C143 allows; refuted by any second value, any negative number.
* C150: an invariant over every schedule on the contents of the file and the progress of each
  gc-build; all rewritings of one graph have the same length.
* C151: the lines of a file up to skipped ones, by induction over them; the refutations from the
  exact grammars of the two parsers (C14, C15).  C152: every item waiting in an iterator ends in a vertex the
  start reaches, so that the steps on both graphs are the same.
* C153: the list of insertions of the reversed history is the list of turned edges; walks and cycles are
  run through backwards; then the exact answers of C84, C160 and C88.
* C154: the effect of a command on the edges leaving one vertex depends only on the edges leaving it; the commands
  written by gc-build add them in their order.  Then C152.
* C155: a request that asks for more has fewer wanted paths and cycles (`more_meets`, `more_cycle_meets`); C85 and C87
  say what is printed in terms of those.  The printed lists are compared with the list of all cycles, in whose order
  both are (`same_order_eq`).
* C156: each law leaves both checks of a constraint as they are (`same_checks`), and the searches use nothing else of
  it; lists with the same meaning are compared through C47 and C48.
* C157: "the file starts with the old content" is kept by every call of these programs (`keeps`, as in C112); reading is
  compared line by line (`read_lines_cut`).
* C158: induction over the lines of a session; the meaning of a line is written with the uses of its options
  (`ClapSpec.v`) and sets of vertices and edges only.  C143, C148 and C80, C82, C118 (gc-random) give one step, C84 to C88 the answers.
* C159: linearizability. A new machine of users (`Clients.v`: begin a call, one file operation, end a call) and a specification of explaining orders (`LinearSpec.v`). The linearization point of an update is its single write, that of a reader its (last) read call; that of gc-init the open of the commands file; the invariant is per user (`stage`). The machine of the specification holds a list of commands, or nothing before the first gc-init. The refutations are concrete runs of the machine.
* C160: C85, C87 and C91 again for every command line. `EverySpec.v` states what is applied (both score bounds from below, order by last mention, malformed values absent); malformed values are removed with C86, the rest follows the proofs of C85, C87 and C91 with the general meaning of the ordered constraint.
* C161: in an order of whole requests (C159), nothing after the first event of a gc-init is refused; real time puts later requests after it.
* C162: a bound on the operations of every call, whatever they find (`ends_in`), and a potential that every step lowers; C162_all_stored reads the final state off C159.
* C163: a path once filled, and those before it, have nothing left for ever, so the rounds of the loop are one pass over the list of C42_exact.
* C164: the stack of the search read from the top is the list of walks still to be followed; the search is a function of the edge lists and the starting vertices.
* C165: the set of removed edges is the list of the edges of the vertices listed, in order; the queue is what is ready beyond those.
* C166: each entry comes from an edge out of a vertex whose entry is still the one used, or has become lower since; at the end nothing can be lowered, which leaves the first case.
* C167: the sets are lists without repetition in any order; each check is compared with its reason.
* C168: by induction over the history from C11; for the notes, each command is compared with the sets it changes.
* C169: both answers are optimal (C84, C85, C56) and each is a candidate for the other.
* C170: C16 gives the error text of the reader; `Debug` of a string leaves letters, digits and spaces as they are. The programs with messages are compared with the programs of the other files run by run.
* C171: the lines of closed text followed by other text are the lines of both; additions only enlarge the sets.
* C172: a program that prints line by line does the same as printing the whole answer to an output that stops at the same line.
* C173: one run of each program for all combinations of refused calls, then induction on the history with the invariant of C22.
* C174: a step-by-step simulation of the tools on a tree of files by the programs of Store.v, with a frame condition for each call; runs, crashes, interleavings and histories follow from it.
* C175: the names between separators of a joined path are those of its parts; Path::parent of a joined path leads to the first part.
* C176: invariants of the single steps (keeps) for the tools with both kinds of refusal; crash states of a request by cases.
* C177, C178: induction over nested uses; an invariant on the phases of locking processes.
* C179: on a stack, the entries below one of depth d number at most D * d if every node has at most D children; breadth-first search goes through whole levels.
* C180: what was read costs at most what is queued, and each walk not yet read has a beginning in the queue.
* C181: program by program the same steps in every tree that keeps the directories the path goes through.
* C182: insertion keeps a strictly increasing list, which its elements determine.
* C183: induction on the conversions; the first characters of a line tell the formats apart.
* C184: a prefix of the text is whole lines and a prefix of one more; a prefix of a numeral is a numeral.
* C185: lists of additions, and of removals, count as sets.
* C186: two runs side by side, the second with every number multiplied.
* C187: blocks of commands exchanged, over the logs of C26.
* C188: an added edge closes a cycle iff its start was reachable from its end; over C51, C52 and C88.
* C189: unions and differences of what the invocations ask for, over C80 and C82.
* C190: an invariant over the stages of processes that make several requests each, on top of the stages of one request (C26); the file is at all times the old one and whole requests.
* C147: C143 and C80.  C148, C149: C143 and the declarations of `--path` and `--verbose`.

## 5. Trusted base

* The Coq 8.16.1 kernel, including its conversion by `vm_compute`, used for
  closed examples and concrete counterexamples.
* Axioms: none.  `Print Assumptions` follows each theorem `Cnn_...` in the
  `Prop*.v` files and prints `Closed under the global context` for all of them.
  A listing of all axioms in the loaded environment also shows the seven
  constants `Coq.ssr.ssrunder.Under_rel.*` of Coq's own standard library; they
  are loaded by `Lia`/`Program` dependencies and no theorem uses them.
* The reading of the Rust sources (the model), as cited in the comments.
* The semantics assumed for the Rust standard library and crates, listed in
  section 2 and section 6.

## 6. Assumptions behind the model, part by part

* Arithmetic (`Topo.v`, `MaxFlow.v`).  `i64` and `u64` operations on weights,
  scores, flows and capacities are checked: leaving the range is `Panic`, as in
  cargo's dev and test profiles; C54, C62 and C105 say when the panic is reached.
  `Release.v` has the same functions as an optimised build runs them, wrapping
  around; C103 to C105 compare the two.  `usize` counters (numbers of vertices,
  edges, pops) are natural numbers.  In `Iter.v` the sum of cost and heuristic
  is an unbounded integer; `Score.v` has the searches with that sum in i64, for
  both builds, and C108 and C109 compare them with `Iter.v`.
* Closures (weights, costs, heuristics, capacities) are total functions.
* Priority queue (`Heap.v`).  The algorithm of `std::collections::BinaryHeap` is
  modelled and shown to pop a greatest element; search theorems hold for every
  queue that pops a least element.
* Text (`Text.v`, `Utf8.v`).  A text is a list of Unicode code points.  Reading is
  also modelled on bytes: C100 says that a UTF-8 file is read as its text, C101 what
  other files do, C102 that the tools keep files decodable, so that the file contents
  of `Store.v` can be taken as text.  The regex crate is modelled for the shapes used here: literals
  followed by greedy classes, anchored at both ends.  `\d` is a parameter `nd`
  that agrees with ASCII digits below 128.
* File system (`Store.v`).  Paths: root, lock file, graph directory, commands
  file.  Not modelled: who owns what (`Refuse.v` has the refusals), the text of an
  `io::Error`.  Write calls succeed in `Store.v`; `Disk.v` lets the operating system
  refuse or shorten each of them (C113, C114), `Refuse.v` every other call (C173).  Atomic steps: each create, open, write call, remove; reading the
  whole file, `create_dir_all` and `remove_dir_all` are one step each; `Reader.v` has one step per
  read call, and C106, C107 say when the difference can be seen; `Steps.v` has one step per
  directory call (C123, C124), with the order of calls of the standard library on Linux.  In `Store.v` the root
  path never is a regular file, so that the directory for the lock file can always be made; `Place.v` has a whole tree of
  files, from which C174 derives the four paths of `Store.v`, and paths that lead through a file.  There a path is a list of
  plain names; `Where.v` reads it from text (C175); `Links.v` adds `..` and symbolic links (C181).  A `BufWriter` may gather
  its pieces into write calls in any way (`chunks`); its actual algorithm is
  `buffered` in `Writer.v`, of which C96 to C99 speak; an open handle acts on the file
  currently at the path; `Inode.v` has handles that keep their file, C115 says that
  this shows only if the directory is removed, C116 what happens then.  Data written before a crash stays written,
  except in `Power.v` (C141), which loses the last effects, or characters of the commands file.
* Command line (`Clap.v`, `Mains.v`).  The parser of clap 2.33.0 is modelled as far as these
  programs use it: long and short options, `=`, values, `--`, `--help`, `--version`, required,
  repeated, conflicting options and groups, default values.  Its source is not in the
  sandbox, so this model rests on knowledge of that version; the help texts in README.md
  confirm which names are flags and which take values.  Where the version matters
  for an option given without a value that has a default, both behaviours are covered by the parameter `fill`.  Words are
  valid Unicode.  `Cli.v`, `Query.v` and `RandomMain.v` start after the parser:
  an option is the values clap returns, a flag is whether clap reports it as present.
  C143 to C149 connect the two.  Random numbers are an arbitrary stream, so the theorems hold
  for every generator and seed.
* Standard output is modelled as a list of lines where a property speaks about
  it, otherwise ignored.  `Print.v` and `Stream.v` let every line fail; elsewhere printing succeeds.
  A panic is a failure exit; its message is in `Told.v`.

## 7. Not modelled

* `path_formatter.rs` (all functions are `unimplemented!()`), clap's help texts
  and the layout of its error texts, the thread name and location around a panic message
  (`Told.v` has the message; the `Debug` texts of library errors are parameters).
* Memory limits, real time, hash collisions (a `HashMap` is a finite map in
  some order).

## 8. Layout

Each part has a model file, a specification file that does not use the model's
helpers, files of lemmas, and a file of theorems.

| Files | Contents |
|-------|----------|
| `Spec.v` | walks, simple paths, reachability on an abstract graph |
| `Base.v`, `WalkFacts.v` | outcomes, association lists, list lemmas; lemmas on walks |
| `Graph.v`, `GraphSpec.v`, `GraphFacts.v`, `OrderFacts.v`, `PropGraph.v` | graph.rs, directed_graph.rs, graph_command.rs; C01 to C12, C93 |
| `Path.v`, `ConstraintSpec.v`, `PathFacts.v`, `Attr.v`, `PropPath.v` | path.rs, constraint/*, attribute/*, constraint builders; C29 to C36, C79, C92 |
| `Queue.v`, `Heap.v`, `Iter.v`, `IterFacts.v`, `TreeFacts.v`, `SearchFacts.v`, `BestFacts.v`, `ConstrainedFacts.v`, `PropSearch.v` | iter/*, search/a_star.rs; C37 to C50 |
| `Topo.v`, `TopoFacts.v`, `PropTopo.v` | topo_sort.rs, shortest_path.rs, longest_path.rs (models); C51, C52 |
| `ShortSpec.v`, `ShortFacts.v`, `DagFacts.v`, `PropShort.v`, `BellmanFacts.v`, `PropBellman.v` | weighted walks; C53 to C58 |
| `MaxFlow.v`, `FlowSpec.v`, `FlowFacts.v`, `PropFlow.v`, `FlowBound.v`, `PropFlowBound.v`, `FlowMax.v`, `PropFlowMax.v`, `FlowGap.v`, `FlowFamily.v`, `PropFlowGap.v` | max_flow.rs; C59 to C62, C117, C125, C126 |
| `Work.v`, `PropWork.v` | number of steps of the searches above; C127, C128 |
| `SpfaWork.v`, `Cascade.v`, `PropSpfaWork.v` | number of turns of SPFA; C129 |
| `PropAgree.v`, `PropAgreeQuery.v` | answers compared with each other; C130 to C135 |
| `LogSpec.v`, `PropLog.v`, `PropGrow.v` | logs in another order, undoing, size after gc-build, larger graphs; C136 to C140 |
| `Power.v`, `PropPower.v` | power loss; C141 |
| `Clap.v`, `ClapSpec.v`, `ClapManual.v`, `ClapFacts.v`, `Mains.v`, `PropClap.v`, `PropLines.v` | command lines: clap's parser, the declarations in bin/*, the programs from their words on; C143 to C149 |
| `RenameSpec.v`, `RenameFacts.v`, `PropRename.v` | other names for the ids; C142 |
| `Release.v`, `ReleaseFacts.v`, `SpfaEnds.v`, `PropRelease.v` | the algorithms above with wrapping arithmetic; C58, C103 to C105 |
| `Cycle.v`, `CycleSpec.v`, `CycleFacts.v`, `PropCycle.v` | iter_cycle.rs, cycle.rs, hamiltonian.rs, filter of gc-cycle; C63 to C70 |
| `Text.v`, `Format.v`, `FormatSpec.v`, `TextFacts.v`, `FormatFacts.v`, `PropFormat.v` | format/*; C13 to C20 |
| `Store.v`, `StoreSpec.v`, `StoreFacts.v`, `CrashFacts.v`, `PropStore.v` | graph_utils.rs, gc-init, gc-build, gc-clean; C21 to C28, C78, C94, C95 |
| `Writer.v`, `WriterFacts.v`, `PropWriter.v` | std's BufWriter under gcmd.rs `add_commands` and `save`; C96 to C99 |
| `Reader.v`, `ReaderFacts.v`, `PropReader.v`, `PropSplice.v` | std's BufReader and lines under format/utils.rs, beside writers; C106, C107 |
| `PropEdits.v` | graph files edited by hand; C151 |
| `PropLocal.v`, `PropFlowLocal.v` | searches on graphs that agree on what the start reaches; C152 |
| `PropReverse.v` | graphs with every edge turned around; C153 |
| `VisitSpec.v`, `VisitFacts.v`, `PropVisit.v` | exactly which order each traversal follows, and which path A* and the constrained search return; C39, C41, C42, C43, C46, C47 |
| `PropDesc.v` | gc-desc: exact output (C76), and on renamed, reversed and larger graphs (C142, C153, C139) |
| `PropKeep.v` | what gc-build and saved files keep of the order of edges; C154 |
| `PropNarrow.v` | requests that ask for more; C155 |
| `PropEquiv.v` | constraints written differently; C156 |
| `PropOnlyGrows.v` | the commands file only grows; C157 |
| `PropSession.v` | sessions of command lines; C158 |
| `Clients.v`, `LinearSpec.v`, `PropLinear.v` | users with several calls each; orders that explain their answers; C159 |
| `EverySpec.v`, `PropEvery.v` | what the options of gc-csp and gc-cycle do on every command line; C160 |
| `PropSetup.v` | users that call gc-init; C161 |
| `PropWait.v` | every call ends, nobody waits; C162 |
| `FillSpec.v`, `PropFill.v` | which flow max_flow returns; C163 |
| `RingSpec.v`, `PropRing.v` | in which order the cycles and the Hamiltonian paths are listed; C63, C164 |
| `ReadySpec.v`, `PropReady.v` | which topological order; C165 |
| `ForkSpec.v`, `PropFork.v` | the paths of one answer form a tree; C166 |
| `Refusal.v`, `RefusalSpec.v`, `PropRefusal.v` | the texts of checker.rs; C167 |
| `UndoSpec.v`, `PropUndo.v` | undoing histories; C168 |
| `PropUnused.v` | deletions outside of an answer; C169 |
| `Told.v`, `PropTold.v` | messages of panics; C170 |
| `PropJoin.v` | graph files one behind the other; C171 |
| `Stream.v`, `PropStream.v` | the query programs line by line; C172 |
| `Refuse.v`, `PropRefuse.v` | every call except write may be refused; C173 |
| `Place.v`, `PlaceFacts.v`, `PropPlace.v` | the tools on a tree of files, a graph at any path; C174 |
| `Where.v`, `PropWhere.v` | the value of --path as text; C175 |
| `Hostile.v`, `PropHostile.v` | refusals and cut writes together; C176 |
| `Library.v`, `PropLibrary.v` | other programs that use with_lock and is_locked; C177, C178 |
| `Space.v`, `PropSpace.v` | entries kept by the searches; C179 |
| `Further.v`, `PropFurther.v` | reading an iterator further; C180 |
| `Links.v`, `PropLinks.v` | paths with `..` and symbolic links; C181 |
| `Compare.v`, `PropCompare.v` | the orders of the library's values and sets of them; C182 |
| `PropConvert.v` | chains of conversions, files given to the wrong reader; C183 |
| `TgfSave.v`, `PropTorn.v` | tgf save as write calls, on any disk, and reading what is left; C184 |
| `PropRetry.v` | invocations repeated until they succeed; C185 |
| `PropUnits.v` | weights and capacities in another unit; C186 |
| `PropSchedule.v` | requests for which the schedule does not matter; C187 |
| `PropLater.v` | edges that may be added to or removed from a sorted graph; C188 |
| `PropSplit.v` | additions and removals grouped and ordered differently; C189 |
| `PropUsers.v` | several users run gc-add or gc-delete at the same time; C190 |
| `PropBeside.v`, `PropBuilds.v` | gc-build beside additions and removals, beside other gc-builds; C119, C150 |
| `Score.v`, `ScoreFacts.v`, `PropScore.v` | a_star.rs, iter_best.rs, iter_best_constraint.rs with 64-bit scores; C108, C109 |
| `Verbose.v`, `PropKill.v` | output of gc-build; killed gc-random, repair; C110 to C112 |
| `Disk.v`, `DiskFacts.v`, `PropDisk.v`, `PropDiskMore.v` | gcmd.rs `save`, `add_commands`, gc-build, gc-add, gc-delete, gc-random when write calls fail; C113, C114, C120 |
| `Inode.v`, `InodeFacts.v`, `PropInode.v` | graph_utils.rs, gcmd.rs, gc-init, gc-build, gc-random with files apart from their names; C115, C116 |
| `Utf8.v`, `Utf8Spec.v`, `Utf8Facts.v`, `PropUtf8.v` | bytes under format/utils.rs; C100 to C102 |
| `Cli.v`, `CliSpec.v`, `CliFacts.v`, `RandomFacts.v`, `PropCli.v`, `PropDraws.v` | arg_utils.rs, gc-add, gc-delete, gc-desc, gc-random; C71 to C77, C80 to C83, C118 |
| `RandomMain.v`, `PropRandomMain.v` | gc-random from its options on; C121 |
| `Print.v`, `PropPrint.v` | gc-build, gc-clean, gc-random when printing fails; C122 |
| `Steps.v`, `PropSteps.v` | directories made and removed call by call; C123, C124 |
| `Query.v`, `QuerySpec.v`, `QueryFacts.v`, `PropQuery.v` | gc-short-path, gc-csp, gc-topo-sort, gc-cycle; C84 to C91 |

## 9. Mutation tests

`seeded/LOG.jsonl` has one line per attempt: a realistic bug put in one
definition of the model in a scratch copy, then a rebuild in which each proof
that breaks is admitted, so that the theorems whose proofs depend on a broken
step show up in `Print Assumptions`.  A claim that still proved although the
bug falsifies it led to a tightened theorem, named in the same line.
