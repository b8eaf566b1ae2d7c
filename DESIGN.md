# Formal model of PyMatching (sparse blossom) in Rocq 8.16

All paths below are relative to `/repo/src/pymatching/sparse_blossom` unless they start with `src/`.

## Layout

`rocq/theories/` is flat; the prefix of a file tells its role.

* `M_*.v`: model. Total computable Gallina functions, one per C++ (or Python) function; every definition
  carries a comment citing the file and lines it models and stating any simplification. No proofs.
* `S_*.v`: specification. Small, independent definitions in which the properties are stated
  (corrections, syndromes, weights of edge sets, abstract priority queues, ...). They do not use model helpers.
* `P_*.v`: proofs (invariants and lemmas).
* `T_*.v`: the property theorems. Each is closed by `exact some_lemma.` and followed by `Print Assumptions`,
  and by `Example`s that exhibit a concrete non-trivial case meeting the hypotheses.

## Modelling conventions

* Machine integers are `Z` (or `N`) with explicit wrap functions where the C++ type wraps
  (`cyclic<uint32_t>`, `radius` bit packing); where the C++ code would have undefined behaviour (shift too
  wide, index out of range, null dereference) the model returns a distinct outcome `UB`.
* C++ exceptions are the outcome `Throw`. Loops without an evident bound take fuel and return `Fuel` when it runs out.
  Theorems about such loops either speak about runs that return, or prove that a bound suffices.
* Pointers are identifiers into a heap (finite map from identifiers to records), so aliasing, dangling and
  null pointers are expressible. Doubly linked structures (blossom parent/child, tree parent/child,
  match/match) are modelled as in the code with both directions stored.
* A `double` is the real number (`R`) that it stands for. In the discretisation of the weights, in the implied weights and in the weight that is
  reported, results are rounded to binary64 after every operation, to nearest and ties to even (`fl`, `M_Double.v`, which uses Flocq's
  definition of rounding); an overflow to infinity is found and counts as undefined behaviour where it is cast to an integer. In merging edges
  and in turning probabilities to weights (logarithms and exponentials of libm) results are exact real numbers; this is said at each use.

## Plan per property

| id | what is modelled | how it is proved |
|----|------------------|------------------|
| C01, C02, C03, C04, C41, C43 | the whole decoding loop: detector nodes, regions, alternating trees, flooder, matcher, extraction (`M_Core.v`) | invariants over all reachable states (`P_Core*.v`): structural (blossom forests, alternating forests, matches), path realisability of compressed edges, tightness, dual feasibility (moat packing), no missed events; weak duality gives optimality |
| C05, C10, C11 | search flooder, path tracing, flip and cancel loop | Dijkstra invariant; multiset-parity invariant of the cancel loop |
| C06, C07 | same state as C01 plus reset code | idle predicate at the end of the run; reset establishes it from any state |
| C08 | the insertion loop of the timeline | refuted by a concrete run of the model (the error leaves queued events behind); beside it two general theorems: nothing placed before the bad index leaves the decoder idle, and something placed blocks every later decode until a reset. On the Matching object (`T_Padding.v`) a packed shot with a set padding bit does it: such shots pass the checks of decode_batch (`P_Padding.v`) |
| C09 | graph construction with negative weights and decode glue | algebra of symmetric differences over edge sets |
| C12, C13 | reweight / apply / undo on a store of weights | induction over the operation list |
| C14, C18 | cyclic numbers, packed varying radii (equality of radii: `M_Compare.v`) | modular arithmetic for every word size / range |
| C15, C16 | radix heap | refinement to an abstract multiset priority queue with unbounded times |
| C17 | event tracker + queue | invariant over request/delivery traces |
| C19 | arena | invariant over traces |
| C20, C21, C22 | blossom splitting; alternating tree pointer code | induction on cycle length / on tree shape (heap representation predicate) |
| C23, C24, C38, C39 | bit conversions, batch loops, syndrome conversion, CLI loops | bit-level induction |
| C25, C26, C27, C30, C33, C40 | user graph state machine | invariants over all call sequences; C27 and C30 are expected to be refuted in full generality, and proved under the missing hypothesis |
| C28, C29, C35 | weight merging over the reals | real analysis (`Reals`), permutation induction |
| C31, C32 | discretisation (in binary64, `M_Double.v`) and graph conversion | arithmetic, with relative error bounds of binary64 rounding (`P_Double.v`); exchange of boundary nodes |
| C34, C36, C37 | model loaders and noise | induction over instruction / column lists |
| C44, C45 | construction, conversion and the whole decode together (`M_Build.v`, `M_Core.v`) | composition of C01/C02 with C09 and C32 through a bijection between selections of given edges and edge sets of the built graph (`P_Signed.v`) |
| C46 | the driver for more than 64 observables (`M_ToEdges.v`) | as C05 |
| C47 | the whole decode, sessions, decoding to edges | every function of the core comes with a termination statement next to its specification (`ends`, `P_Ends.v`); queue processing between two matcher events by a lexicographic measure on the queue and the arrived nodes (`P_CoreRun.v`); the main loop by a bound on the number of tree and blossom events (`P_CoreCount.v`); extraction by the size of blossoms (`P_CoreExt2.v`) |
| C42 | 32-bit wrapped radius in detector nodes, 32-bit cyclic times | refuted without a bound on the correction (a state step that reproduces itself); proved when some correction weighs less than 2^31, or when there is a correction and no two events that paths join are 2^31 or more apart (`S_Reach.v`): the core proofs are about any `ints` that change no value up to the sum of the radii around one event (`fine`, `P_CoreGeo.v`); that sum is at most the weight of any correction by duality, and less than the distance to some other event or the boundary, since growing regions that hold an odd number of events must be able to leave (`P_Reach.v`) |
| C48 | loading of implied weights and the three two-pass drivers, and batches of shots (`M_Correlated.v`) | the rule table has the shape of the graph, so reweighting a built graph gives exactly the graph built from the lowered edges (`P_Correlated.v`); then C05, C46, C47 on both graphs and C12 for the undo (`P_Correlated2.v`) |
| C49 | making the decoder of a user graph and the Python-facing decode and decode_to_edges (`M_Pipeline.v`), out of the parts modelled for C05, C09, C11, C29, C46 | corrections of the user graph and of the converted graph translate into each other (`P_UserCorr.v`); rounding errors add up (`P_Pipeline.v`); then C47, and C42 for 32-bit integers (`P_Pipeline2.v`, `P_Pipeline3.v`) |
| C50 | filling in the search graph (`M_ToEdges.v`) | invariant over the edges loaded so far (`P_SearchGraph.v`) |
| C51 | the core on the radix heap with 32-bit times (`M_CoreHeap.v`) | simulation: requests outside the window of 2^31 would be requests in the past (`P_CoreSim.v`); every run on the heap is a run of the core with a suitable oracle (`P_CoreHeap.v`) |
| C52 | the search flooder on its own radix heap (`M_SearchHeap.v`); the Python-facing decode and decode_to_edges, and series of such calls, on both heaps (`M_PipelineHeap.v`) | the same simulation for the search (`P_SearchHeap.v`, `P_SearchHeap2.v`); each heap's choices give an oracle for which C49's proof applies (`P_PipelineHeap.v`) |
| C53 | the Matching object: graph, kept decoder, array shapes, batches, edges, pairs and dictionaries (`M_Matching.v`, on top of `M_UserGraph.v`, `M_Bits.v`, `M_PipelineHeap.v`) | invariant: the kept decoder, if not marked out of date, is that of the current graph with possibly fewer observables, and is ready, also after a call that raised (C62); induction over the calls (`P_Matching.v`); graphs with at most 64 nodes are compact by removing loops from paths (`P_Compact.v`, `P_MatchingAny.v`) |
| C54 | `decode_to_matched_detection_events` (`M_Matching.v`) | each pair stands for a shortest path (C02); its edges without repetitions, mapped back to user edges, join the pair; their total is at most the optimum (`P_Matched.v`) |
| C55 | `load_dem` (`M_Dem.v`) followed by calls on the Matching object (`M_Matching.v`); the specification of mechanisms and likelihood is `S_DemDecode.v` | by induction over the mechanisms the likelihood of a set is the product over edges of q or 1-q, hence a constant times exp(-weight); the correction of C53 is mapped to one mechanism per edge and sets of mechanisms to edge sets (`P_DemDecode.v`); the same mapping turns a correction into an explanation, so an unexplained syndrome is unsolvable and the call raises (`C55_any_events`) |
| C56 | `load_check_matrix` (`M_CheckMatrix.v`) followed by calls on the Matching object (`M_Matching.v`); column errors and wrong outcomes in each round are specified in `S_MatrixDecode.v` | every edge stands for a column of a round or a check between rounds, the one of least weight among equal columns; sums over what happens are split over the edges, and the correction of C53 is mapped to one error per edge (`P_MatrixDecode.v`); so a syndrome that nothing explains is unsolvable and the call raises (`C56_any_events`, `C56_no_solution`) |
| C57 | `load_model`, `build_correlated`, `corr_step` (`M_CorrDecode.v`): both graphs with their rules and `previous_weights`, two passes on radix heaps and 32-bit times; pairs, what is learned and right answers are specified in `S_CorrDecode.v` | C48 gives the least cost for the lowered integer weights of each pass, C35 the rules; rounding commutes with the minimum; edges and pairs of the model correspond one to one; an invariant of the object (weights as loaded, idle decoder) carries over any sequence of calls; events that nothing accounts for throw in the first pass, before any weight is changed, and the handler leaves the decoder idle (`P_CorrFail.v`) |
| C58 | `cli_decoder`, `decode64_h`, `cli_predict`, `cli_count_mistakes` (`M_CliDecode.v`): the loops of `M_Cli.v` around the decoder of `M_CorrDecode.v`; right lines and differences are specified in `S_CliDecode.v` | each shot leaves the decoder at rest (C55, C57) and the 64-bit path tells the same mask as the row that the other path writes (`P_CliMask.v`, `P_CliPass.v`); induction over the shots; with more than 64 observables the mask is always zero, whence the report and the witness of `C58_many_observables_refuted` |
| C59 | `read_graph`, `to_networkx`, `to_rustworkx` (`M_GraphIO.v`): graphs are what iterating over them yields, attributes are dictionaries with the four keys the code looks at; `described`, `same_graph`, `answers_for` in `S_GraphIO.v` | reading is a sequence of calls of `M_UserGraph.v` (`P_GraphIO.v`; C26 tells what is stored); the lists written hold each edge (`P_GraphWrite.v`); edge sets of the copy and of the original correspond, so corrections, weights and pairs carry over and C53 applies to the copy (`P_GraphCopy.v`) |
| C60, C61 | `run` of `M_UserGraph.v`; `asked_for`, `greatest` in `S_History.v` | induction over the calls, from the last one backwards (`P_History.v`) |
| C62 | `M_Failing.v`: the flooder and its heap when an exception leaves the decoder, and decoding one syndrome after another whether or not it has a correction | as C42 and C51, with the second bound only: until it is clear that there is no perfect matching, a growing region is within reach of an event or boundary that a path joins it to, or is the tree that exhausted its component (`room`, `P_CoreGeo.v`; `P_Reach.v`); then the reset leaves an idle flooder and an empty heap (`P_CoreHeap2.v`) |
| C63 | the arguments of load_from_check_matrix and the arrays of the sparse matrices, read without bounds checks (`M_MatrixArgs.v`); what they stand for is in `S_MatrixArgs.v` | on well-formed arrays the loader is that of `M_CheckMatrix.v` on the stored columns (`P_MatrixArgs.v`, `P_MatrixArgs2.v`); what explains the events and what it costs does not depend on how a column lists its ones (`P_MatrixArgs3.v`), so C56 applies |
| C64 | nothing new is modelled; distances are defined in `S_Distance.v` | the correction found and the errors that happened together cause no detection events and weigh less than the distance, so they flip no observable (`P_Distance.v`); with C53, C63, C55 and C58 (`P_Distance2.v`) |
| C65 | the Python methods and bindings that make and inspect a graph, with their conversions of arguments and a limit to the number of nodes there is memory for (`M_PyGraph.v`); the table is in `S_PyGraph.v` | the graph stands for a table, call by call (`P_PyGraph.v`); the specification determines every reply |
| C66 | nothing new is modelled; renumbered graphs are defined in `S_Weights.v` | the weight is shown to be that of the least sum of discretised weights over all corrections, converted to a double (`told`, `P_Weights.v`); the normalising constant depends on the weights as a multiset only; corrections of the one graph become corrections of the other with the same weights; additions of different edges commute up to the order of the list of edges |
| C67 | Matching.add_noise on top of the model of C37, with the comparison of the numbers drawn and the probabilities (`M_Noise.v`); the numbers drawn are arguments, the random number generator is not modelled | the arrays are those of C37; the flipped edges explain the events that were returned, so that C53 and C64 apply; the symmetric difference of the flipped edges and the correction has no detection events |
| C68 | the conversion of arrays of integers to uint8 before every method that decodes (`M_Cast.v`); lists of Python ints and floating-point numbers are not modelled | congruent arrays of bytes are what the conversion gives, so that C53 applies; that every nonzero entry counts is refuted by an entry 256 (`C68_nonzero_refuted`) |
| C69 | nothing new: calls on a Matching object, as in C53, now with negative weights when matched detection events are asked for | a negative edge leaves a negative edge behind when boundary edges are converted, so that the sum of negative weights is not zero and an exception is raised before anything is decoded; if all rounded weights are at least zero, the proof of C53 applies; that every negative weight raises an exception is refuted by a weight of -2^-40 beside one of 3/2 |
| C70 | `M_Nodes.v`: get_nodes_on_shortest_path_from_source with its unchecked read of `nodes`, on a graph that is also changed and decoded with (M_Matching) | entries of the search graph are edges of the user (C50) and a search gives a lightest path (C52), so that paths of the search graph and routes in the user's graph have the same weights; the search leaves the decoder as ready as it was, hence the proof of C53 goes through for series that mix both; the three misuses are proved to be undefined behaviour |
| C71 | `M_Extract.v`: the two recursions that take a matching apart, and the decoding functions that use them, each on its own (`M_Core.v` has one function in place of both) | each is a projection of the function of `M_Core.v`, for every state, outcome and nesting (`P_Extract.v`); with C04 and C51 this gives the answer (`P_Extract2.v`); a witness for regions left behind (`P_Extract3.v`) |
| C72 | `M_QueueList.v`: to_vector (with the sorting) and satisfies_invariants of the event queue of `M_RadixHeap.v` | false (`C72_listing_refuted`): the last bucket is not listed, though events can be in it. The list has the events in the half of the period where the present is, sorted: from the representation invariant of C15, and the order of cyclic times (`P_QueueList.v`).. `C72_check_partial`, `C72_check_refuted`: satisfies_invariants checks every bucket but the last |
| C73 | `M_Load.v`: the functions of matching.py that load a graph into an object in use, on top of `M_MatrixArgs.v`, `M_GraphIO.v`, `M_Dem.v` and `M_Matching.v` | what is made is a graph that fits the invariant of C53, or an exception, and never an undefined read (`P_Load.v`); then induction over the calls |
| C74 | `M_Inspect.v`: the order and equality of regions, the radius of a node bounded by a region, find_root, tree_equal and all_nodes_in_tree, over the state of `M_Core.v` | from the invariant of the main loop: blossom parents and tree parents form forests on the objects in use, inner regions are frozen, a region without children has a detection event in its shell. The stitch radius (drawing only) is not modelled |
| C75 | `load_check_matrix` of `M_CheckMatrix.v` with both values of `virtual`; the graphs are decoded by the model of `M_Matching.v` | a simulation: after every column the two graphs have the same edges but for the boundary node, because both look up the same position; so corrections correspond one to one with the same weights, and the integer that the decoder minimises (C66) is the same |
| C76 | no new code: the sessions of `M_Matching.v`; `combines`, `no_events`, `has_more_edges` in `S_Triangle.v` | the reported weight is the rounded quotient of the least integer weight of a correction (C66); the symmetric difference of two corrections corrects the combined events and weighs at most their sum; an error bound for the division of doubles gives the factor (`P_Triangle.v`); cheaper edges (`S_Cheaper.v`): the corresponding edges of the other graph are a correction there |
| C77 | the operators of cyclic.h (`M_Compare.v`, `M_Cyclic.v`), a series of them as one run | modular arithmetic, induction over the series; case analysis on which value is larger |
| C78 | merged_with, reversed and the comparison operators of compressed edges, events, queued events and results (`M_Compare.v`); walks and `same_event` in `S_Compare.v` | induction over walks; case analysis |
| C79 | pm::main, the executable's main, pymatching.cli and the installed script (`M_Program.v`), with the programs of `M_CliDecode.v` | case analysis on the command; C58 for what the programs do |
| C80 | the sessions of `M_Matching.v`; `replies_agree` in `S_Agree.v` | from C53: both answers are as light as any; sets of edges that join the pairs, added modulo two, are a correction |
| C81 | the sessions of `M_Matching.v`; `quiet_reply` in `S_Quiet.v` | from C53: only the empty correction is as light as the empty one |
| C82 | the sessions of `M_Matching.v`; `separate` and `split_by` in `S_Parts.v` | from C66: a correction of the whole is the union of corrections of the parts, so its rounded weight is at least the sum of theirs; the other inequality is that of C76 |

### The decoder's core (`M_Core.v`)

One state record holds all detector nodes, regions, alternating tree nodes, both arenas, and the flooder's queue with the
node and region trackers. The functions follow flooder/graph_flooder.cc, flooder/detector_node.cc,
flooder/graph_fill_region.cc, flooder_matcher_interop/*, matcher/alternating_tree.cc, matcher/mwpm.cc and
driver/mwpm_decoding.cc one by one. What is simplified:

* Pointers are slot numbers of the two arenas; a freed slot may be handed out again, as in arena.h. Reading a null pointer or a
  missing element is `UB`. Reading a stale slot is not detected, but the theorems hold whatever such slots contain.
* The queue delivers some item of minimal time; which one among equals is chosen by an arbitrary function `orc`, so
  the theorems hold for every tie-breaking. That the radix heap is such a queue is C15 (`M_RadixHeap.v`); C51 puts it in
  the place of the abstract queue.
* Integer conversions are a parameter `ints`. `machine_ints` truncates where the C++ code does (int32 wrapped radius,
  cyclic times); `exact_ints` does not. The correctness theorems C01 to C06 are about `exact_ints`; the C42 theorems
  give total correctness for `machine_ints` when some correction weighs less than 2^31 or distances are less than 2^31, and
  C42_refuted shows that truncation breaks the decoder beyond.
* `fuel` bounds loops and recursion; the theorems other than C47 speak about every run that does not return `Fuel`, and
  C47 shows that beyond some bound no run does.
* Both variants of the extraction (observables and weight, match edges) are one function returning all three results.
* Not modelled: statistics and drawing code. Decoding with edge correlations is in `M_Correlated.v` (C48).

The hypotheses of the correctness theorems: `wf_graph` (even non-negative weights, edges stored at both ends, no parallel edges,
no self-loops, boundary edge first: what `add_edge` and `to_matching_graph` build), an idle decoder, distinct
detection events in range.

The invariant (`Inv` in `P_CoreSelf2.v`): regions form a forest under blossom_parent with odd cycles of tight edges
(`geo`); every node in a region is reached by a path of the right length from the event it descends from; the radii form a feasible
moat packing; the queue holds every interaction that can come next (`sched`); each top region is in exactly one tree or
matched by a tight edge (`roles`). It is shown to hold after the detection events are placed (`P_CoreAdd.v`), to be kept by the
flooder (`P_CoreFlood.v`, `P_CoreStep.v`) and by each matcher event (`P_CoreShat.v` ... `P_CoreEvent.v`), and to give at the
end either a certificate that no correction exists (`P_CoreEnd.v`) or the state from which the extraction
(`P_CoreExt*.v`) reads off paths with total length the value of the moat packing (`P_CoreDecode.v`).

### The core on the radix heap (`M_CoreHeap.v`)

The loops of the core with `M_RadixHeap.dequeue` in place of the oracle, and `cyclic_ints`: the machine's conversions and the cyclic
comparison of `set_desired_event`; `dequeue_decision` compares 32-bit times. Trackers keep the integers the 32-bit times stand for.
The calls to `enqueue` between two calls to `dequeue` are executed, in order, at the start of the second. The proof uses
`spy_ints`, which compare exactly and turn a request outside [now, now + 2^31) into a request in the past. The invariant
of the core forbids requests in the past, and holds for them under the hypotheses of C42; so no such
request is made, and then the code's integers do the same (`P_CoreSim.v`, one lemma per function). The choices made by the heap are
collected along the well-founded induction that shows termination, and give the oracle (`P_CoreHeap.v`).

### The path search (`M_Search.v`)

The search flooder is modelled in full: scheduling, the loop until two frontiers (or a frontier and the boundary) collide, both
ways of reporting the path, and the reset. It shares the queue, the oracle and the event trackers with the core. The invariant
`sinv` (`P_Search.v`) is that of a two-sided Dijkstra search with a lazily filled queue: distances along the recorded
predecessors, no edge shortens a distance, and each reached node next to unexplored territory is due in the queue in time. It is
kept by every event and a measure decreases (`P_Search2.v`); a potential argument gives minimality (`P_Search3.v`).
Simplified: observables of an edge are a mask.
`M_SearchHeap.v` is the search on its own radix heap with 32-bit times, modelled as in `M_CoreHeap.v` (C52).

### Decoding through shortest paths (`M_ToEdges.v`)

The construction of the search graph, decoding to solution edges and decoding with more than 64 observables. The search graph is
shown to have the shape of the matching graph (`P_ToEdges.v`); each match edge stands for a shortest path (C04), the path search
finds one (C10), and the flip-and-cancel loop (C11) leaves the symmetric difference (`P_ToEdges2.v`). With more than 64
observables the observables in the core are cut to 64 bits and ignored, as in the code; they are collected along the paths.
C05 fails for negative self-loops (`C05_negative_loop_refuted`).

### Edge correlations (`M_Correlated.v`)

Both graphs are held with their current weights and their list of previous weights, and are returned whatever the outcome, so the
theorems can say that an exception leaves them unchanged. A rule carries its rounded half weight (as in `M_Reweight.v`).
With edges of negative weight C48 fails (`C48_negative_weight_refuted`): the magnitudes of negative edges are lowered, but the sum of the
negative weights is not, so the reported weight is that of no correction.

### The whole way (`M_Pipeline.v`)

C49 puts the models together. The normalising constant, the rescaled weights and the final division are computed in
binary64; only the merging of parallel edges is in exact real numbers. `half_step` (`S_Pipeline.v`) is half a step of the discretisation and a
millionth of it more, which covers all rounding of doubles. If all weights are minute (below 10^-301, but not all zero) the constant is infinite, which is undefined
behaviour (`C31_minute_refuted`); `scalable` excludes this. A fault id not below num_fault_ids counts as undefined behaviour
when the decoder is made. What 32 bits allow is `manageable` (`S_Pipeline.v`): some correction with all negative edges has at most 64 edges (or, for integer weights,
absolute weights of at most 2^29 in all), or no two nodes that edges connect are further apart than that (`compact`), however many edges the correction
has. The same bounds are stated for mechanisms and pairs in C55, C57 and C58 (`few_steps`, `S_Spread.v`). Two hypotheses are about negative weights: edges that the conversion drops must not be worth using
(`conversion_harmless`; true without negative weights and true without declared boundary nodes), and for decode_to_edges no self-loop
may be negative (`C05_negative_loop_refuted`). `M_PipelineHeap.v` is the same on the two radix heaps (C52); calls are made one after another on one
decoder. `M_Matching.v` is the Matching object (C53): the graph, the decoder kept until an edge or the boundary changes, and the arrays of syndromes and
predictions. `M_CorrDecode.v` is the object loaded from a detector error model with the calls that take enable_correlations (C57); a component that names
one detector twice passes the loader but makes building the decoder fail (`C57_repeated_detector_refuted`), because self-loops are not
stored in the graph. In both the object goes on after an exception for want of a perfect matching. An exception in the second of two correlated passes would leave
the lowered weights behind, as nothing restores them; the model has it so (`two_pass_left`), and C57 shows that it does not happen for models it covers. Not in either: the
conversion of Python values to arrays of uint8, which `M_Cast.v` adds to the first for arrays of integers (C68): `np.array(z, dtype=np.uint8)` keeps the lowest eight bits, so that
an entry 256 is lost (`C68_nonzero_refuted`).

C58 puts the command line programs on top. With more than 64 observables count_mistakes compares the recorded observables with zero
(`C58_many_observables_refuted`): the path for up to 64 observables is used whatever their number, and masks are zero beyond 64. Argument parsing is not modelled; reading
it shows that the check for "--in_includes_appended_observables or --obs_in" cannot fail, since --obs_in defaults to stdin, so with neither the predictions
are compared with zero.

C63 is about the arguments of load_from_check_matrix. The values of a matrix are cast to 8 bits before it is checked that all are ones, so 257 or -255 pass
(`C63_values_refuted`). With well-formed arrays nothing is read out of bounds (`C63_in_bounds`), but the offsets of the faults matrix are not compared with the number
of its indices, so a malformed one that passes the checks is read behind its end (`C63_in_bounds_refuted`); for the check matrix the start of each column is compared. Stored zeros are removed from the check matrix (from the caller's own object if it is a csc_matrix), but not from the faults matrix, where
they raise. How scipy converts other matrices to csc_matrix is not modelled.

C59 is about graphs of other libraries. networkx and rustworkx themselves are modelled only as far as the order in which they list nodes and edges and
their treatment of parallel edges. to_networkx forgets nodes without edges (`C59_networkx_detectors_refuted`, `C59_networkx_boundary_refuted`); an error that flips
an observable twice flips it once after writing and reading (`C59_cancelling_refuted`); parallel edges can leave a fault id out of range
(`C59_parallel_edges_refuted`), since merging does not raise num_fault_ids.

C60 shows that the documentation of ensure_num_fault_ids and min_num_fault_ids (matching.py:1465, 1517, 1605, 1765) is off by one: num_fault_ids is not max(n, max_id) but
max(n, max_id + 1) (`C60_documented_refuted`).

C78: AltTreeEdge::operator== compares the compressed edges only, so edges to different nodes of a tree can be equal (`C78_tree_edge_refuted`); ExtendedMatchingResult::operator+=
reads beyond the end of a shorter vector, since its assertion is not compiled into a release; DecomposedDemError::operator== (user_graph.h:258-259) is declared but defined nowhere.
merged_with is used by nothing but tests.

C79: `_cli_argv.py` drops what pymatching.cli returns, so the installed script `pymatching` ends with status 0 although its program stopped with an exception
(`C79_script_refuted`); the executable built from main.cc ends with status 1.

Anything only partly proved is named `*_partial` and its gap is written next to it and in `MANIFEST.json`.

### The methods of the Python class (`M_PyGraph.v`)

C65 holds for calls that name neither node nor fault id 2^64-1 and no boundary node beyond the memory. Reading the code for it showed: `has_edge(u, 2^64-1)` and
`get_edge_data(u, 2^64-1)` answer for the edge to the virtual boundary (`C65_reserved_node_refuted`); `set_boundary_nodes({2^64-1})` computes `n + 1 = 0`, empties the vector of
nodes and writes beyond it (`C65_largest_boundary_refuted`); if the vector cannot be enlarged, for example in `set_boundary_nodes({2**40})`, the exception leaves the node in
`boundary_nodes`, and the next call of `set_boundary_nodes` writes out of range (`C65_memory_refuted`); `add_boundary_edge` takes no notice of `qubit_id`, which `add_edge` still
understands (`C65_boundary_qubit_id_ignored`); a merge strategy that does not exist is not noticed if the weight is too large to be accepted; `edges` replaces an error probability outside
[0, 1] by -1 and `get_edge_data` does not. Fault id 2^64-1 (for which `obs + 1` is 0) is excluded and its effect not modelled. Deprecated arguments other than `qubit_id`, warnings and conversions
of numbers that are not Python ints are not modelled.

## Trusted base

Rocq's kernel; the reading of the C++ and Python sources that the citations in `M_*.v` document; and the axioms of the
standard library's real numbers where they are used. `Print Assumptions` follows every theorem. It lists nothing ("Closed under the global
context") except in

* `T_Discretise.v`, `T_Merge.v`, `T_Dem.v`, `T_Pipeline.v`, `T_PipelineHeap.v`, `T_Matching.v`, `T_DemDecode.v`, `T_MatrixDecode.v`, `T_MatrixArgs.v`, `T_Distance.v`, `T_Weights.v`, `T_Triangle.v`, `T_Program.v`, `T_Agree.v`, `T_Quiet.v`, `T_Cheaper.v`, `T_Parts.v`, `T_MatrixBounds.v`, `T_Noise.v`, `T_Cast.v`, `T_Negative.v`, `T_Nodes.v`, `T_Load.v`, `T_CorrDecode.v`, `T_CliDecode.v`, `T_GraphIO.v`, `T_Virtual.v`: `ClassicalDedekindReals.sig_not_dec`,
  `ClassicalDedekindReals.sig_forall_dec`, `FunctionalExtensionality.functional_extensionality_dep`,
  `Classical_Prop.classic` (some theorems use only some of them).

Flocq is used in `M_Double.v` and `P_Double.v` only; it adds no axiom of its own.

No axiom, parameter, functor or plugin is added; no kernel check is switched off.
