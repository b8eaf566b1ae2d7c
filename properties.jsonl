{"id": "C01", "title": "Predicted observables come from a correction that explains the syndrome", "statement": "Whenever decoding a set of detection events returns (rather than raising), there is a set of edges of the matching graph whose odd-degree detectors are exactly the given detection events and whose combined logical observables are exactly the predicted observables.", "quantifier": "every matching graph (any size, any non-negative integer edge weights, with or without boundary edges), every set of distinct detection events, every run that returns", "why_tests_cant": "the number of (graph, syndrome) pairs is unbounded and ties, blossom nesting and event interleavings make each run different; tests only compare finitely many shots with a reference decoder", "anchors": ["src/pymatching/sparse_blossom/driver/mwpm_decoding.cc: decode_detection_events_for_up_to_64_observables, decode_detection_events, process_timeline_until_completion", "src/pymatching/sparse_blossom/matcher/mwpm.cc: Mwpm::process_event, shatter_blossom_and_extract_matches", "src/pymatching/sparse_blossom/flooder/graph_flooder.cc: GraphFlooder::run_until_next_mwpm_notification"]}
{"id": "C02", "title": "The returned weight is the minimum over all corrections", "statement": "Whenever decoding returns, the returned total weight is less than or equal to the total weight of every set of edges that explains the detection events, and it is attained by one such set (the one that produces the predicted observables).", "quantifier": "every matching graph with non-negative even integer weights, every set of distinct detection events, every run that returns, every competing set of edges", "why_tests_cant": "optimality compares one answer against exponentially many alternatives; tests check only instances where a reference optimum was precomputed", "anchors": ["src/pymatching/sparse_blossom/driver/mwpm_decoding.cc: process_timeline_until_completion, shatter_blossoms_for_all_detection_events_and_extract_obs_mask_and_weight", "src/pymatching/sparse_blossom/flooder/graph_flooder.cc: find_next_event_at_node_*, do_look_at_node_event", "src/pymatching/sparse_blossom/matcher/mwpm.cc: handle_*"]}
{"id": "C03", "title": "'No perfect matching' is raised only for syndromes that cannot be explained", "statement": "If decoding raises the 'no perfect matching could be found' error for a set of detection events, then no set of edges of the graph explains those detection events; conversely a syndrome that cannot be explained is never answered with a correction.", "quantifier": "every matching graph, every set of distinct detection events", "why_tests_cant": "requires ruling out every possible correction; tests use a handful of disconnected graphs", "anchors": ["src/pymatching/sparse_blossom/driver/mwpm_decoding.cc: process_timeline_until_completion (lines 130-145)", "src/pymatching/sparse_blossom/flooder/graph_flooder.cc: run_until_next_mwpm_notification"]}
{"id": "C04", "title": "Matched pairs cover every detection event exactly once", "statement": "Decoding to matched detection events returns a list of pairs in which every given detection event occurs exactly once, paired either with another given detection event or with the boundary, and no other node occurs.", "quantifier": "every matching graph with non-negative weights, every set of distinct detection events, every run that returns", "why_tests_cant": "depends on arbitrarily deep blossom nesting and arbitrary alternating-tree shapes; tests fix small shapes", "anchors": ["src/pymatching/sparse_blossom/driver/mwpm_decoding.cc: decode_detection_events_to_match_edges", "src/pymatching/sparse_blossom/matcher/mwpm.cc: shatter_blossom_and_extract_match_edges, pair_and_shatter_subblossoms_and_extract_matches", "src/pymatching/sparse_blossom/driver/user_graph.pybind.cc: decode_to_matched_detection_events_array"]}
{"id": "C05", "title": "Solution edges explain the syndrome and agree with the decoded weight and observables", "statement": "Decoding to solution edges returns pairwise distinct edges of the graph whose odd-degree detectors are exactly the given detection events, and the sum of their weights is the minimum weight.", "quantifier": "every matching graph, every set of distinct detection events", "why_tests_cant": "paths found for different matched pairs can overlap arbitrarily; cancellation must be right for every overlap pattern", "anchors": ["src/pymatching/sparse_blossom/driver/mwpm_decoding.cc: decode_detection_events_to_edges, flip_edge", "src/pymatching/sparse_blossom/search/search_flooder.h: iter_edges_on_shortest_path_from_middle", "src/pymatching/sparse_blossom/matcher/mwpm.cc: extract_paths_from_match_edges"]}
{"id": "C06", "title": "A successful decode leaves no residue", "statement": "After any decode that returns, the decoder is idle: no event is pending in any queue, no region or tree node is in use, and every detector node is unoccupied with no pending wake-up; so the next decode starts from the same observable state as a freshly built decoder.", "quantifier": "every matching graph, every set of distinct detection events, any number of earlier decodes", "why_tests_cant": "residue depends on the full execution history; tests only decode a few shots in a row", "anchors": ["src/pymatching/sparse_blossom/driver/mwpm_decoding.cc: process_timeline_until_completion, shatter_blossoms_for_all_detection_events_*", "src/pymatching/sparse_blossom/flooder/detector_node.cc: DetectorNode::reset", "src/pymatching/sparse_blossom/flooder/graph_fill_region.cc: cleanup_shell_area", "src/pymatching/sparse_blossom/arena.h"]}
{"id": "C07", "title": "A decode that fails with 'no perfect matching' leaves the decoder usable", "statement": "After a decode raises the 'no perfect matching' error, the decoder is idle in the same sense as after a successful decode, so later decodes behave as on a fresh decoder.", "quantifier": "every matching graph, every infeasible set of detection events, every state reached before the failure", "why_tests_cant": "the partial state at the failure point is arbitrary (any mix of trees, blossoms, frozen regions)", "anchors": ["src/pymatching/sparse_blossom/driver/mwpm_decoding.cc: process_timeline_until_completion (130-145)", "src/pymatching/sparse_blossom/matcher/mwpm.cc: Mwpm::reset", "src/pymatching/sparse_blossom/flooder/detector_node.cc: DetectorNode::reset"]}
{"id": "C08", "title": "A decode rejected because of an out-of-range detection event leaves the decoder usable", "statement": "If decoding raises because a detection event index is too large, the decoder is left idle, and later decodes of valid syndromes behave as on a fresh decoder. (Expected from any input-validation error.)", "quantifier": "every matching graph, every list of detection events containing an invalid index", "why_tests_cant": "exception-safety over every prefix of already inserted detection events; no test decodes again after this error", "anchors": ["src/pymatching/sparse_blossom/driver/mwpm_decoding.cc: process_timeline_until_completion (82-128)", "src/pymatching/sparse_blossom/driver/user_graph.pybind.cc: decode_batch with bit_packed_shots"]}
{"id": "C09", "title": "Negative edge weights are handled by an exact reduction", "statement": "For a graph with negative edge weights, XOR-ing the syndrome with the odd-degree nodes of the negative edges, solving with absolute weights, then XOR-ing the observables with those of the negative edges and adding the sum of negative weights, gives exactly the minimum-weight corrections of the original signed problem: a correction is optimal for the signed problem iff its symmetric difference with the negative edges is optimal for the reduced problem, and weights and observables are related as the code computes them.", "quantifier": "every matching graph with signed integer weights (including boundary edges), every syndrome, every correction", "why_tests_cant": "an equivalence between two optimisation problems over all edge subsets", "anchors": ["src/pymatching/sparse_blossom/flooder/graph.cc: add_edge, add_boundary_edge, update_negative_weight_*", "src/pymatching/sparse_blossom/driver/mwpm_decoding.cc: process_timeline_until_completion (97-128), decode_detection_events (220-247)"]}
{"id": "C10", "title": "Path search returns a shortest path", "statement": "The bidirectional search between two connected detectors (or a detector and the boundary) returns a contiguous path between them whose total weight is minimal among all paths, and leaves the search graph idle.", "quantifier": "every search graph with non-negative even weights, every pair of distinct connected nodes / boundary", "why_tests_cant": "minimality over all paths of an unbounded graph and all event orders", "anchors": ["src/pymatching/sparse_blossom/search/search_flooder.cc: run_until_collision, find_next_event_at_node_returning_neighbor_index_and_time, do_look_at_node_event", "src/pymatching/sparse_blossom/search/search_flooder.h: iter_edges_tracing_back_from_collision_edge"]}
{"id": "C11", "title": "Overlapping solution paths cancel modulo two and all edge marks are cleared", "statement": "Given any list of path edges (with repetitions, in either orientation), the cancellation step outputs each edge that occurs an odd number of times exactly once and no other edge, and every per-edge mark in the graph has its original value afterwards.", "quantifier": "every graph without parallel edges, every list of its edges with repetitions in either direction", "why_tests_cant": "arbitrary multiplicities, orders and orientations", "anchors": ["src/pymatching/sparse_blossom/driver/mwpm_decoding.cc: flip_edge, decode_detection_events_to_edges (297-325)"]}
{"id": "C12", "title": "Correlated reweighting is completely undone", "statement": "After decoding with correlations, every edge weight of the matching graph and of the search graph has exactly the value it had before, whatever edges were reweighted, in whatever order and however often the same edge was touched.", "quantifier": "every graph, every set of reweighting rules, every sequence of reweighted edges (including repetitions)", "why_tests_cant": "undo must be right for every interleaving and repetition of updates to the same location", "anchors": ["src/pymatching/sparse_blossom/flooder/graph.cc: reweight_for_edges, undo_reweights", "src/pymatching/sparse_blossom/flooder/graph.h: apply_reweights", "src/pymatching/sparse_blossom/search/search_graph.cc: reweight_for_edges, undo_reweights"]}
{"id": "C13", "title": "Reweighting only lowers weights and keeps the two directions of an edge equal", "statement": "While reweights are in force every edge weight is at most its original value, equals the minimum of its original value and the implied weights of the rules triggered for it, and the weight stored at both endpoints is the same.", "quantifier": "every graph whose rules refer to existing edges, every sequence of reweighted edges", "why_tests_cant": "depends on arbitrary rule sets and orders", "anchors": ["src/pymatching/sparse_blossom/flooder/graph.h: apply_reweights", "src/pymatching/sparse_blossom/flooder/graph.cc: convert_rule, reweight_for_edge"]}
{"id": "C14", "title": "Cyclic timestamps order correctly within half a period", "statement": "Comparing two 32-bit cyclic timestamps gives the same answer as comparing the unbounded times they come from whenever these differ by less than half the period, and recovering an unbounded time from a cyclic one and a nearby reference is exact.", "quantifier": "all unbounded times and all offsets within half the period, any word size", "why_tests_cant": "2^64 pairs of words times unbounded epochs", "anchors": ["src/pymatching/sparse_blossom/tracker/cyclic.h: operator<, <=, >, >=, widen_from_nearby_reference"]}
{"id": "C15", "title": "The event queue delivers events in time order and loses or invents none", "statement": "Under the documented contract (events are not in the past and less than half a period in the future), for every sequence of enqueue and dequeue operations: each dequeue returns an event whose time is minimal among the pending ones, returned times never decrease, the multiset of pending events is exactly what was enqueued and not yet dequeued, and dequeue reports 'no event' exactly when nothing is pending.", "quantifier": "every interleaving of enqueues and dequeues of unbounded length satisfying the contract, across timestamp wrap-around", "why_tests_cant": "unbounded histories and wrap-around of the 32-bit clock", "anchors": ["src/pymatching/sparse_blossom/tracker/radix_heap_queue.h: enqueue, dequeue, cur_bit_bucket_for"]}
{"id": "C16", "title": "Clearing the event queue always terminates with an empty queue", "statement": "clear() removes all pending events, whatever their number and times, and terminates; the queue is then empty and usable.", "quantifier": "every reachable queue state", "why_tests_cant": "loop termination depends on a counter kept consistent by all earlier operations", "anchors": ["src/pymatching/sparse_blossom/tracker/radix_heap_queue.h: clear, reset, empty, size"]}
{"id": "C17", "title": "Wake-ups are never lost and never delivered twice", "statement": "For a tracked object: after any sequence of 'want a wake-up at time t' and 'want no wake-up' requests interleaved with queue deliveries, if a wake-up at t is wanted last, exactly one delivery is accepted, it is accepted exactly at time t, and no delivery is accepted while none is wanted.", "quantifier": "every sequence of requests and deliveries of unbounded length", "why_tests_cant": "all interleavings of requests with stale queue entries", "anchors": ["src/pymatching/sparse_blossom/tracker/queued_event_tracker.h: set_desired_event, set_no_desired_event, dequeue_decision"]}
{"id": "C18", "title": "Region radii are exact linear functions of time", "statement": "The packed growing/shrinking/frozen radius representation evaluates to the intended linear function at every time, switching direction at time t never changes the value at t, and computed crossing times are the exact roots.", "quantifier": "all intercepts, times and switch times within the representable range", "why_tests_cant": "bit-packing arithmetic over the full integer range", "anchors": ["src/pymatching/sparse_blossom/flooder_matcher_interop/varying.inl", "src/pymatching/sparse_blossom/flooder_matcher_interop/varying.h"]}
{"id": "C19", "title": "The object pool never hands out an object that is in use", "statement": "For every sequence of allocations and releases (releasing only live objects), an allocation never returns an object that is currently live, released objects are reused, the live count equals allocations minus releases, and destroying the pool destroys exactly the live objects once.", "quantifier": "every sequence of alloc/release operations of unbounded length", "why_tests_cant": "unbounded histories", "anchors": ["src/pymatching/sparse_blossom/arena.h: Arena::alloc_unconstructed, alloc_default_constructed, del, ~Arena"]}
{"id": "C20", "title": "Splitting an odd cycle at any member leaves a perfect pairing of the rest", "statement": "When a blossom (odd cycle of regions) is resolved because one member is matched outside, all other members are paired with cycle-neighbours, each exactly once, using the connecting edge between them oriented from the first to the second; for every cycle length and every position of the externally matched member.", "quantifier": "every odd cycle length, every index of the externally matched child", "why_tests_cant": "unbounded cycle length and wrap-around indexing", "anchors": ["src/pymatching/sparse_blossom/matcher/mwpm.cc: pair_and_shatter_subblossoms_and_extract_matches, shatter_blossom_and_extract_match_edges, handle_blossom_shattering"]}
{"id": "C21", "title": "Re-rooting an alternating tree reverses exactly the path to the root", "statement": "Making a tree node the root keeps the set of nodes and the set of connecting edges (up to reversal), makes every node reachable from the new root, and reverses only the edges on the path from the node to the old root.", "quantifier": "every alternating tree of any shape and depth, every node in it", "why_tests_cant": "unbounded tree shapes", "anchors": ["src/pymatching/sparse_blossom/matcher/alternating_tree.cc: AltTreeNode::become_root", "src/pymatching/sparse_blossom/matcher/alternating_tree.h: unstable_erase"]}
{"id": "C22", "title": "The common ancestor search finds the lowest common ancestor and leaves no marks", "statement": "For two nodes of the same tree the result is their lowest common ancestor; for nodes of different trees the result is 'none'; all visited marks set during the search are removed when it returns (for nodes of the same tree, all but those on the cycle that are removed by the subsequent pruning).", "quantifier": "every forest, every pair of nodes", "why_tests_cant": "unbounded tree shapes; marks must be cleaned for later searches", "anchors": ["src/pymatching/sparse_blossom/matcher/alternating_tree.cc: most_recent_common_ancestor, prune_upward_path_stopping_before"]}
{"id": "C23", "title": "Observable masks and bit vectors convert back and forth without loss", "statement": "Expanding an observable mask to one byte per observable and packing it again is the identity for every number of observables up to 64, and each output byte is 1 exactly for the observables in the mask.", "quantifier": "every mask and every number of observables up to 64", "why_tests_cant": "2^64 masks; shift widths matter", "anchors": ["src/pymatching/sparse_blossom/driver/mwpm_decoding.cc: fill_bit_vector_from_obs_mask, bit_vector_to_obs_mask"]}
{"id": "C24", "title": "Bit-packed batch decoding reads and writes exactly the intended bits", "statement": "With bit-packed shots, detector i of a shot is taken from bit i mod 8 of byte i div 8, identically to the unpacked representation; with bit-packed predictions, observable i is written to bit i mod 8 of byte i div 8 and padding bits are zero; batch results equal those of decoding each shot on its own.", "quantifier": "every shot, every number of detectors and observables, all packings", "why_tests_cant": "all bit patterns and widths", "anchors": ["src/pymatching/sparse_blossom/driver/user_graph.pybind.cc: decode_batch (247-340)"]}
{"id": "C25", "title": "The user graph behaves as a simple graph with unordered edge keys", "statement": "After any sequence of edge additions, there is at most one edge per unordered pair of nodes and at most one boundary edge per node; has_edge / has_boundary_edge / get_edge_data answer the same for (u,v) and (v,u), and hold exactly for the pairs added; num_edges is the number of distinct keys; num_nodes is one more than the largest node used (or the initial number).", "quantifier": "every sequence of add_edge / add_boundary_edge / set_boundary calls with any arguments and merge strategies", "why_tests_cant": "unbounded histories", "anchors": ["src/pymatching/sparse_blossom/driver/user_graph.cc: add_or_merge_edge, add_or_merge_boundary_edge, has_edge, has_boundary_edge, set_boundary, get_num_nodes, get_num_edges", "src/pymatching/sparse_blossom/driver/user_graph.h: UserNode::index_of_neighbor"]}
{"id": "C26", "title": "Merge strategies do what they say", "statement": "Adding an edge that already exists has exactly the documented effect: 'disallow' raises and changes nothing; 'keep-original' changes nothing; 'replace' makes the edge have the new attributes; 'smallest-weight' keeps the attributes of the smaller weight (the original on ties); 'independent' combines weights and probabilities as independent mechanisms and keeps the original observables; in all cases no other edge changes.", "quantifier": "every graph history, every pair of parallel edges, each merge strategy", "why_tests_cant": "unbounded histories and attribute values", "anchors": ["src/pymatching/sparse_blossom/driver/user_graph.cc: merge_edge_or_boundary_edge, add_or_merge_edge, add_or_merge_boundary_edge"]}
{"id": "C27", "title": "num_fault_ids bounds every fault id in the graph", "statement": "At all times every fault id carried by an edge of the graph is smaller than num_fault_ids, so that every observable flipped by a correction is present in the prediction array.", "quantifier": "every sequence of add_edge / add_boundary_edge / ensure_num_fault_ids calls with any merge strategies", "why_tests_cant": "unbounded histories; the combination of merging and new fault ids is untested", "anchors": ["src/pymatching/sparse_blossom/driver/user_graph.cc: add_or_merge_edge, merge_edge_or_boundary_edge, set_min_num_observables", "src/pymatching/sparse_blossom/driver/user_graph.pybind.cc: add_edge"]}
{"id": "C28", "title": "Independent merging is the log-likelihood ratio of the XOR", "statement": "For edge probabilities p, q strictly between 0 and 1 with weights log((1-p)/p) and log((1-q)/q), the merged weight equals log((1-r)/r) with r = p(1-q)+q(1-p), and r is the merged probability; so in a graph loaded from a detector error model, every edge's weight is the log-likelihood ratio of its probability.", "quantifier": "all probabilities in (0,1), all merge sequences", "why_tests_cant": "a real-analytic identity over a continuum; order of merges unbounded", "anchors": ["src/pymatching/sparse_blossom/driver/user_graph.cc: merge_weights, merge_edge_or_boundary_edge, handle_dem_instruction", "src/pymatching/sparse_blossom/driver/user_graph.h: bernoulli_xor"]}
{"id": "C29", "title": "The order of independent error mechanisms does not matter", "statement": "Merging any list of independent mechanisms on the same edge gives the same probability and weight for every order of the list, probabilities stay in [0,1], and probabilities at most 1/2 stay at most 1/2 (weights stay non-negative).", "quantifier": "all finite lists of probabilities and all permutations", "why_tests_cant": "unbounded lists and a continuum of values", "anchors": ["src/pymatching/sparse_blossom/driver/user_graph.cc: merge_edge_or_boundary_edge", "src/pymatching/sparse_blossom/driver/user_graph.h: bernoulli_xor"]}
{"id": "C30", "title": "Noise can be sampled whenever every edge has an error probability", "statement": "all-edges-have-error-probabilities is true exactly when every edge currently in the graph has a probability in [0,1].", "quantifier": "every sequence of edge additions with any merge strategies", "why_tests_cant": "unbounded histories", "anchors": ["src/pymatching/sparse_blossom/driver/user_graph.cc: merge_edge_or_boundary_edge, add_or_merge_edge, get_all_edges_have_error_probabilities"]}
{"id": "C31", "title": "Discretised weights are even, in range and faithful", "statement": "Every integer weight used for decoding is even and has absolute value at most 2*(2^24-1), so that no 32-bit weight overflows; it is twice the rescaled user weight rounded to an integer, computed in binary64 arithmetic; integral user weights within range are represented exactly up to the factor 2, so minimum-weight solutions are unchanged; otherwise the error per edge is at most 1/2 + 2^-29 of a unit of the rescaled weight, the second part being the error of the doubles. The conversion is refused exactly when a weight exceeds 2^24-1, and is otherwise defined, except when all weights are so minute that the normalising constant overflows to infinity.", "quantifier": "every user graph with weights of absolute value at most 2^24-1", "why_tests_cant": "continuum of weights; extremal magnitudes decide overflow", "anchors": ["src/pymatching/sparse_blossom/driver/user_graph.h: iter_discretized_edges", "src/pymatching/sparse_blossom/driver/user_graph.cc: get_edge_weight_normalising_constant", "src/pymatching/sparse_blossom/driver/user_graph.pybind.cc: add_edge"]}
{"id": "C32", "title": "Declared boundary nodes act as one absorbing boundary", "statement": "Converting a user graph with declared boundary nodes to the decoding graph preserves corrections: for non-negative weights the minimum weight of explaining a syndrome on the non-boundary detectors is the same in the user graph (where boundary nodes are unconstrained) and in the converted graph.", "quantifier": "every user graph, every set of boundary nodes, every syndrome", "why_tests_cant": "all graphs, boundary choices and syndromes; equality of two minima", "anchors": ["src/pymatching/sparse_blossom/driver/user_graph.h: iter_discretized_edges, to_matching_or_search_graph_helper", "src/pymatching/sparse_blossom/driver/user_graph.cc: to_matching_graph, to_search_graph, set_boundary"]}
{"id": "C33", "title": "Decoding always uses the current graph", "statement": "After any sequence of graph modifications and decodes, each decode uses a decoding graph built from the current user graph: caching is invisible.", "quantifier": "every interleaving of add_edge / add_boundary_edge / set_boundary / ensure_num_fault_ids / decode operations", "why_tests_cant": "stale-cache bugs need a particular interleaving", "anchors": ["src/pymatching/sparse_blossom/driver/user_graph.cc: get_mwpm, get_mwpm_with_search_graph, update_mwpm, _mwpm_needs_updating"]}
{"id": "C34", "title": "Detector error models load as the graph of their graphlike components", "statement": "Loading a detector error model puts into the graph exactly the components (between separators) with one or two detectors of instructions with positive probability: each edge's probability is the XOR-combination of the probabilities of all components on that detector set, its observables are those of the first component merged into it, components with zero or more than two detectors contribute no edge.", "quantifier": "every detector error model (any list of instructions, separators and probabilities)", "why_tests_cant": "unbounded models", "anchors": ["src/pymatching/sparse_blossom/driver/user_graph.h: iter_detector_error_model_edges", "src/pymatching/sparse_blossom/driver/user_graph.cc: handle_dem_instruction, detector_error_model_to_user_graph"]}
{"id": "C35", "title": "Correlated reweighting rules are well-formed conditional weights", "statement": "When a model is loaded with correlations, each rule's implied weight is the log-likelihood ratio of the conditional probability capped at 1/2, hence non-negative and finite; rules always refer to edges present in the graph.", "quantifier": "every detector error model with probabilities at most 1/2", "why_tests_cant": "unbounded models and a continuum of probabilities", "anchors": ["src/pymatching/sparse_blossom/driver/user_graph.cc: add_decomposed_error_to_joint_probabilities, populate_implied_edge_weights", "src/pymatching/sparse_blossom/driver/user_graph.h: iter_dem_instructions_include_correlations"]}
{"id": "C36", "title": "A check matrix loads as the graph of its columns", "statement": "Loading a check matrix with one or two ones per column, with any number of repetitions, creates in layer t, for each column, exactly the edge between its rows in layer t (or the boundary edge), with that column's weight and fault ids, and between consecutive layers exactly one time-like edge per row; nothing else; columns without ones contribute nothing and matrices with a column of more than two ones are rejected.", "quantifier": "every sparse matrix, all repetition counts, weights and fault-id matrices", "why_tests_cant": "unbounded matrix sizes and index arithmetic", "anchors": ["src/pymatching/sparse_blossom/driver/user_graph.pybind.cc: sparse_column_check_matrix_to_matching_graph (466-614)", "src/pymatching/matching.py: load_from_check_matrix"]}
{"id": "C37", "title": "Sampled noise is consistent", "statement": "The sampled syndrome is exactly the set of odd-degree nodes of the flipped edges with boundary nodes reported as 0, and the sampled fault vector is the XOR of the fault ids of the flipped edges; nothing is written outside the two output arrays when every fault id is below num_fault_ids.", "quantifier": "every graph with error probabilities, every outcome of the random draws", "why_tests_cant": "all random outcomes", "anchors": ["src/pymatching/sparse_blossom/driver/user_graph.cc: add_noise", "src/pymatching/sparse_blossom/driver/user_graph.pybind.cc: add_noise"]}
{"id": "C38", "title": "Syndrome arrays convert to the right detection events", "statement": "A 1D syndrome array is accepted iff its length is between num_detectors and num_detectors plus the number of boundary nodes, a 2D one iff its size is num_detectors; the detection events are exactly the positions of the nonzero entries (column-major time order in the 2D case), strictly increasing and in range.", "quantifier": "every array shape and content", "why_tests_cant": "all shapes and contents", "anchors": ["src/pymatching/matching.py: _syndrome_array_to_detection_events"]}
{"id": "C39", "title": "The command line predictor writes one prediction per shot", "statement": "The predict command writes, for each input shot in order, exactly the decoded observables, and count_mistakes reports exactly the number of shots whose decoded mask differs from the recorded one together with the number of shots.", "quantifier": "every list of shots", "why_tests_cant": "unbounded shot lists; residue between shots must not matter", "anchors": ["src/pymatching/sparse_blossom/driver/namespaced_main.cc: main_predict, main_count_mistakes"]}
{"id": "C40", "title": "Out-of-range weights never enter the graph through add_edge", "statement": "Through the Python add_edge and add_boundary_edge, an edge with |weight| above 2^24-1 is skipped and leaves the graph unchanged; hence every stored weight has absolute value at most 2^24-1.", "quantifier": "every sequence of calls with arbitrary weights and merge strategies (including independent merging of stored weights)", "why_tests_cant": "unbounded histories; merging combines stored weights", "anchors": ["src/pymatching/sparse_blossom/driver/user_graph.pybind.cc: add_edge, add_boundary_edge", "src/pymatching/sparse_blossom/driver/user_graph.cc: merge_edge_or_boundary_edge"]}
{"id": "C41", "title": "Compressed edges always stand for real paths", "statement": "At every moment of decoding, each recorded connection between two detection events (or a detection event and the boundary) is realised by a path of graph edges whose observables XOR to the recorded mask.", "quantifier": "every graph, every syndrome, every reachable state of every run", "why_tests_cant": "unbounded executions; a single wrong XOR or reversed end is only visible in rare tree shapes", "anchors": ["src/pymatching/sparse_blossom/flooder_matcher_interop/compressed_edge.h: reversed, merged_with", "src/pymatching/sparse_blossom/flooder/graph_flooder.cc: do_neighbor_interaction, do_degenerate_implosion", "src/pymatching/sparse_blossom/matcher/mwpm.cc"]}
{"id": "C42", "title": "Decoding terminates for every graph the API accepts", "statement": "For every graph whose weights are within the documented maximum and every syndrome, decoding finishes.", "quantifier": "every graph with |weights| at most 2^24-1 and any number of edges, every syndrome", "why_tests_cant": "path lengths are unbounded although each weight is bounded; the arithmetic is 32-bit", "anchors": ["src/pymatching/sparse_blossom/flooder/detector_node.h: wrapped_radius_cached", "src/pymatching/sparse_blossom/flooder/graph_flooder.cc: do_look_at_node_event", "src/pymatching/sparse_blossom/flooder/detector_node.cc: compute_wrapped_radius"]}
{"id": "C43", "title": "Decoding valid input never runs into undefined behaviour", "statement": "Decoding a set of distinct in-range detection events never follows a null pointer, never reads a missing element of a list and never throws inside the flooder, the matcher or the extraction.", "quantifier": "every matching graph, every set of distinct detection events, every order in which simultaneous events are delivered, any earlier decodes", "why_tests_cant": "a null dereference may need a rare tree or blossom shape; tests exercise finitely many", "anchors": ["src/pymatching/sparse_blossom/matcher/mwpm.cc: process_event and handlers", "src/pymatching/sparse_blossom/flooder/graph_flooder.cc", "src/pymatching/sparse_blossom/flooder_matcher_interop/region_edge.h"]}
{"id": "C44", "title": "Decoding with signed weights is optimal", "statement": "For a matching graph built from edges of either sign, the decoded weight is the sum of the signed weights of some set of edges whose odd-degree detectors are exactly the detection events, its observables are those of that set, and no such set has a smaller sum; an error is raised only if no such set exists.", "quantifier": "every list of accepted edge insertions without parallel edges, every set of distinct detection events, every tie-breaking", "why_tests_cant": "the reduction to non-negative weights must be right for every sign pattern and compose with the optimality of the decoder on unbounded graphs", "anchors": ["src/pymatching/sparse_blossom/driver/mwpm_decoding.cc: process_timeline_until_completion, decode_detection_events_for_up_to_64_observables", "src/pymatching/sparse_blossom/flooder/graph.cc: add_edge, add_boundary_edge, update_negative_weight_detection_events"]}
{"id": "C45", "title": "Decoding a user graph with declared boundary nodes is optimal", "statement": "For a user graph with non-negative weights and any set of declared boundary nodes, the decoded weight and observables are those of a set of edges with odd degree at exactly the non-boundary nodes with a detection event (boundary nodes may have any degree), and no such set is lighter; an error is raised only if none exists.", "quantifier": "every user graph without parallel edges, every boundary set, every set of distinct detection events", "why_tests_cant": "boundary edges are merged during conversion; the claim relates corrections of two graphs for all inputs", "anchors": ["src/pymatching/sparse_blossom/driver/user_graph.cc: to_matching_graph", "src/pymatching/sparse_blossom/driver/mwpm_decoding.cc: process_timeline_until_completion"]}
{"id": "C46", "title": "Decoding with more than 64 observables is optimal and reports every observable", "statement": "When observables are collected along shortest paths, the reported weight and the reported value of every observable are those of one minimum-weight set of edges explaining the detection events.", "quantifier": "every matching graph with any number of observables, every set of distinct detection events", "why_tests_cant": "paths of different match edges overlap arbitrarily, and the path taken by the search need not be the one found by the decoder", "anchors": ["src/pymatching/sparse_blossom/driver/mwpm_decoding.cc: decode_detection_events", "src/pymatching/sparse_blossom/matcher/mwpm.cc: extract_paths_from_match_edges", "src/pymatching/sparse_blossom/search/search_flooder.h: iter_edges_on_shortest_path_from_middle"]}
{"id": "C47", "title": "Decoding always terminates, with an answer exactly when a correction exists", "statement": "Every decode of distinct in-range detection events on a valid graph ends: if some set of edges explains the events the decoder returns a minimum-weight one (also as solution edges, also with signed weights), otherwise it raises an error; after either outcome the decoder can go on through any further list of syndromes.", "quantifier": "every valid matching graph, every set of distinct detection events, every order of simultaneous queue events, every decoder history", "why_tests_cant": "non-termination shows only as a hang on some graph and tie order that tests do not reach; no finite set of runs shows that growing, shrinking, forming and breaking blossoms cannot go on forever", "anchors": ["src/pymatching/sparse_blossom/flooder/graph_flooder.cc: run_until_next_mwpm_notification", "src/pymatching/sparse_blossom/matcher/mwpm.cc: process_event, shatter_blossom_and_extract_matches", "src/pymatching/sparse_blossom/driver/mwpm_decoding.cc: process_timeline_until_completion"]}
{"id": "C48", "title": "Decoding with edge correlations uses the weights implied by a first optimal correction and leaves no trace", "statement": "With edge correlations enabled, the answer (observables and weight, or solution edges) is that of a minimum-weight correction under the weights obtained by lowering each edge to the least weight implied for it by the edges of some minimum-weight correction of the given graph; afterwards all weights of both graphs, the decoder and the search are as before, so any number of shots can follow; a syndrome without correction and a graph loaded without correlations raise an error without changing any weight.", "quantifier": "every matching graph with non-negative weights and any implied weights, every set of distinct detection events, every list of shots, every order of simultaneous queue events", "why_tests_cant": "needs two optimal decodes and an exact undo composed over unbounded graphs, rule tables and shot sequences; a wrong restore order or a stale weight shows only in later shots", "anchors": ["src/pymatching/sparse_blossom/driver/mwpm_decoding.cc: decode_detection_events_for_up_to_64_observables, decode_detection_events, decode_detection_events_to_edges_with_edge_correlations", "src/pymatching/sparse_blossom/flooder/graph.cc: reweight_for_edges, undo_reweights, convert_implied_weights", "src/pymatching/sparse_blossom/search/search_graph.cc: reweight_for_edges, undo_reweights"]}
{"id": "C49", "title": "From the calls that make a graph to a near-minimum-weight answer in the caller's weights", "statement": "For a graph made by any sequence of calls with real weights (not all of them minute), the decoder is made without error, and decoding returns the observables flipped by some set of the caller's edges that explains the detection events; the set's weight exceeds that of any other such set by at most half a discretisation step per edge involved (and a millionth of that for the rounding of doubles), the reported weight is within half a step per edge of the set's weight, both are exact for integer weights (the reported weight up to 2^52, where doubles stop being exact); decode_to_edges lists such a set; if no set explains the events an error is raised.", "quantifier": "every sequence of add_edge, add_boundary_edge, set_boundary_nodes and set_min_num_observables calls with any real weights, every set of distinct detection events, every decoder history and order of simultaneous queue events", "why_tests_cant": "weights are real numbers and graphs unbounded; the claim composes merging, normalisation, rounding, boundary redirection, matching, path search and rescaling, and a test cannot enumerate all corrections to compare with", "anchors": ["src/pymatching/sparse_blossom/driver/user_graph.cc: to_matching_graph, to_search_graph, to_mwpm, get_edge_weight_normalising_constant", "src/pymatching/sparse_blossom/driver/user_graph.h: iter_discretized_edges", "src/pymatching/sparse_blossom/driver/user_graph.pybind.cc: decode, decode_to_edges_array", "src/pymatching/sparse_blossom/driver/mwpm_decoding.cc: decode_detection_events"]}
{"id": "C50", "title": "The search graph holds every edge at both ends with its weight, observables and sign", "statement": "After loading edges into the search graph, the entries stored at a node are exactly the non-loop edges incident to it, each with its other end, the magnitude of its weight, the parity of each of its observables, and a marker telling whether its weight is negative; the list of negative edges is exactly the negative non-loop edges in loading order.", "quantifier": "every list of edges with signed weights, any number of observables, every node", "why_tests_cant": "unbounded graphs; the sign markers are written but read nowhere, so no decoding test can notice a wrong one", "anchors": ["src/pymatching/sparse_blossom/search/search_graph.cc: add_edge, add_boundary_edge", "src/pymatching/sparse_blossom/search/search_detector_node.h: FLIPPED, WEIGHT_SIGN"]}
{"id": "C51", "title": "Decoding on the real radix heap with 32-bit times", "statement": "With the queue and integers of the code - 33-bucket radix heap, times reduced modulo 2^32, cyclic comparisons in the event trackers, int32_t radii - decoding a syndrome that has a correction lighter than 2^31, or has a correction and no two events further apart than that, ends with a minimum-weight correction, leaves the decoder idle and the heap empty, and does so again for every further syndrome decoded on the same decoder.", "quantifier": "every well-formed graph with edge weights up to the largest accepted one, signed weights, every sequence of syndromes with a correction lighter than 2^31, every idle decoder state with an empty heap at any current time", "why_tests_cant": "the heap redistributes buckets depending on the bits of all queued times; sizes, weights and the length of the session are unbounded, and errors from wrapped times need totals close to 2^31", "anchors": ["src/pymatching/sparse_blossom/tracker/radix_heap_queue.h: enqueue, dequeue", "src/pymatching/sparse_blossom/tracker/queued_event_tracker.h: set_desired_event, dequeue_decision", "src/pymatching/sparse_blossom/tracker/cyclic.h: operator>, operator==", "src/pymatching/sparse_blossom/flooder/graph_flooder.cc: dequeue_valid, run_until_next_mwpm_notification", "src/pymatching/sparse_blossom/driver/mwpm_decoding.cc: process_timeline_until_completion"]}
{"id": "C52", "title": "A decoder on radix heaps and 32-bit times answers any series of calls correctly", "statement": "With the queues and integers of the code in both flooders - the matching flooder and the search flooder each with a 33-bucket radix heap, times modulo 2^32, cyclic comparisons - a shortest-path query ends with a path no other beats and leaves the search and its heap as they were, and a decoder made from a user graph answers every call in any series of decode and decode-to-edges calls with the observables, weight or edges of a correction that no other beats by more than the rounding of the weights, as long as each syndrome has a correction of at most 64 edges counting all edges of negative weight, or any correction if all connected nodes are connected by at most 64 edges.", "quantifier": "every graph made by any sequence of construction calls with real weights, every series of calls of any length, every well-formed search graph and query", "why_tests_cant": "state left over in two heaps, trackers, arenas and FLIPPED marks matters only for particular later calls; the series, the graph and the weights are unbounded", "anchors": ["src/pymatching/sparse_blossom/search/search_flooder.h: iter_edges_on_shortest_path_from_middle, iter_edges_on_shortest_path_from_source", "src/pymatching/sparse_blossom/search/search_flooder.cc: run_until_collision, reset", "src/pymatching/sparse_blossom/tracker/radix_heap_queue.h: enqueue, dequeue, reset", "src/pymatching/sparse_blossom/driver/mwpm_decoding.cc: decode_detection_events, decode_detection_events_to_edges", "src/pymatching/sparse_blossom/driver/user_graph.pybind.cc: decode, decode_to_edges_array"]}
{"id": "C53", "title": "Every reply of a Matching object is right for its graph at the time of the call", "statement": "On a Matching object that starts empty, with changes to the graph (add_edge, add_boundary_edge, set_boundary_nodes, ensure_num_fault_ids) and requests (decode, decode_batch in all four combinations of packing, decode_to_edges_array, decode_to_matched_dets_array, decode_to_matched_dets_dict) made in any order, every request whose array has an accepted shape and whose events some set of edges explains is answered with predictions, weight, edges or pairs of a correction for the graph as it is then that no other beats by more than the rounding of the weights; if nothing explains the events, or the array has another shape, an exception is raised, and every call that raises leaves later replies right. The decoder kept between calls is never out of date, also when ensure_num_fault_ids raised the number of observables after it was made.", "quantifier": "every sequence of calls of any length, every graph reached with real weights, arrays of any size", "why_tests_cant": "whether the kept decoder, its queues and its search graph fit the current graph depends on the whole history of calls; histories are unbounded", "anchors": ["src/pymatching/matching.py: decode, decode_batch, decode_to_edges_array, decode_to_matched_dets_array, decode_to_matched_dets_dict", "src/pymatching/sparse_blossom/driver/user_graph.pybind.cc: decode, decode_to_edges_array, decode_batch, decode_to_matched_detection_events_dict", "src/pymatching/sparse_blossom/driver/user_graph.cc: update_mwpm, get_mwpm, get_mwpm_with_search_graph, set_min_num_observables", "src/pymatching/sparse_blossom/driver/mwpm_decoding.cc: decode_detection_events, decode_detection_events_to_match_edges"]}
{"id": "C54", "title": "The matched pairs of detection events are those of a best correction", "statement": "For a graph without negative weights the pairs given by decode_to_matched_detection_events have every detection event that is not at a boundary node in exactly one pair, no other node, and no pair without a first node; and there are sets of edges, one for each pair, that join the two events without touching the boundary or the event to the boundary, and together weigh no more than any correction, up to the rounding of the weights.", "quantifier": "every graph made by any sequence of construction calls with non-negative real weights, every set of detection events with a correction of at most 64 edges", "why_tests_cant": "a pairing can be a perfect matching and still not be of least weight, or have pairs that only make sense together; the graph and the events are unbounded", "anchors": ["src/pymatching/sparse_blossom/driver/mwpm_decoding.cc: decode_detection_events_to_match_edges", "src/pymatching/sparse_blossom/driver/user_graph.pybind.cc: decode_to_matched_detection_events_array, decode_to_matched_detection_events_dict", "src/pymatching/sparse_blossom/matcher/mwpm.cc: extract_match_edges"]}
{"id": "C55", "title": "Decoding with a detector error model finds a most likely explanation", "statement": "For a Matching object made from a detector error model without correlations, the predicted observables are those flipped by a set of error mechanisms that explains the detection events, and no other set of mechanisms that explains them is more likely, up to the factor that rounding the weights can make; the likelihood of a set is the probability that on every pair of detectors an odd number of mechanisms happen exactly where they do in the set. The reported weight is the logarithm of the ratio of the likelihood of nothing to that of the set, up to the same rounding. If mechanisms on the same detectors flip the same observables, the prediction does not depend on which of them happened. If no set of mechanisms explains the events, an exception is raised and the object can be used further. Any sequence of calls on the object gets right replies (C53).", "quantifier": "every detector error model with probabilities below one, every syndrome", "why_tests_cant": "maximum over exponentially many sets of mechanisms; a sum over all ways in which indistinguishable mechanisms can happen; all models", "anchors": ["src/pymatching/sparse_blossom/driver/user_graph.h: iter_detector_error_model_edges", "src/pymatching/sparse_blossom/driver/user_graph.cc: detector_error_model_to_user_graph, handle_dem_instruction, merge_weights, bernoulli_xor", "src/pymatching/sparse_blossom/driver/mwpm_decoding.cc: decode_detection_events", "src/pymatching/matching.py: from_detector_error_model, decode"]}
{"id": "C56", "title": "Decoding with a check matrix finds a cheapest explanation", "statement": "For a Matching object made from a check matrix, possibly repeated over several rounds of measurements, the predicted faults are those of a set of column errors and wrong check outcomes that explains the changes of the outcomes from round to round, and no other set that explains them costs less, up to the rounding of weights and exactly for integer weights; the reported weight is its cost. With one round and the default faults matrix the prediction is a solution of the linear system given by the matrix and the syndrome, of least weight. This holds when different columns differ, with every merge strategy, and also with repeated columns for the default strategy. If nothing explains the changes (with one round: if the linear system has no solution), an exception is raised and the object can be used further. Any sequence of calls on the object gets right replies (C53).", "quantifier": "every check matrix with at most two ones per column, every faults matrix, number of rounds, weights, boundary option, and every syndrome", "why_tests_cant": "minimum over exponentially many sets of errors; all matrices, numbers of rounds and syndromes", "anchors": ["src/pymatching/sparse_blossom/driver/user_graph.pybind.cc: sparse_column_check_matrix_to_matching_graph", "src/pymatching/matching.py: load_from_check_matrix, decode", "src/pymatching/sparse_blossom/driver/user_graph.cc: add_or_merge_edge, merge_edge_or_boundary_edge", "src/pymatching/sparse_blossom/driver/mwpm_decoding.cc: decode_detection_events"]}
{"id": "C57", "title": "Correlated decoding with a detector error model", "statement": "For a Matching object made from a detector error model with correlations enabled, every reply to decode, decode_batch or decode_to_edges_array with correlations enabled comes of two decisions: first a set of pairs of detectors (a single detector counts as a pair with the boundary) that accounts for the detection events and costs least when each pair costs the log-likelihood ratio of an odd number of errors on it, then a set that accounts for the events and costs least when the probability of each pair is raised to the greatest of its conditional probabilities (at most one half) given an error on a pair of the first set. Costs are least up to the rounding of weights. The prediction is the observables of the second set, the reported weight its cost, the edges its pairs. Replies without correlations come of the first decision alone. Calls of all kinds can follow one another in any order: the weights changed for one shot are restored. A call whose detection events no set of pairs accounts for raises, and the object goes on to reply as before. An object loaded without correlations raises whenever it is asked for a correlated decoding.", "quantifier": "every detector error model with probabilities of at most one half whose errors are decomposed into components on one or two different detectors, no two on the same pair; every sequence of calls whose syndromes at most 64 pairs account for, or of calls with any syndromes if there are at most 64 detectors or no two connected detectors are further apart than 64 pairs", "why_tests_cant": "minima over exponentially many sets of pairs; all models, syndromes and sequences of calls", "anchors": ["src/pymatching/sparse_blossom/driver/user_graph.cc: iter_dem_instructions_include_correlations, populate_implied_edge_weights, get_edge_weight_normalising_constant, to_mwpm, detector_error_model_to_user_graph", "src/pymatching/sparse_blossom/driver/mwpm_decoding.cc: decode_detection_events, decode_detection_events_to_edges_with_edge_correlations", "src/pymatching/sparse_blossom/flooder/graph.cc: convert_implied_weights, reweight_for_edges, undo_reweights", "src/pymatching/matching.py: decode, decode_batch, decode_to_edges_array"]}
{"id": "C58", "title": "The command line programs, from the detector error model to the report", "statement": "`pymatching predict`, given a detector error model and shots, writes for each shot a right line: the observables flipped by a most likely explanation of the shot's detection events (C55), or with correlations enabled the observables that come of the two decisions of C57. `pymatching count_mistakes`, given the same model and shots and the observables recorded for each shot, reports how many of those lines differ from the recorded observables, and the number of shots, provided the model has at most 64 observables. If the recorded observables end before the shots do it stops with an exception. With more than 64 observables the report does not depend on the predictions: it is the number of shots with one of the first 64 recorded observables set, so a program whose predictions all agree may report mistakes.", "quantifier": "every detector error model sound in the sense of C55 (or C57, with correlations), every list of shots whose events a few errors explain, every recording of the observables, appended to the shots or in a file of its own", "why_tests_cant": "minima over exponentially many explanations; all models and all lengths of the list of shots, the state of the decoder being carried from shot to shot", "anchors": ["src/pymatching/sparse_blossom/driver/namespaced_main.cc: main_predict, main_count_mistakes", "src/pymatching/sparse_blossom/driver/mwpm_decoding.cc: detector_error_model_to_mwpm, decode_detection_events, decode_detection_events_for_up_to_64_observables"]}
{"id": "C59", "title": "networkx and rustworkx graphs are read and written faithfully", "statement": "Reading: a graph is read exactly if its boundary nodes and the ends of its edges are not negative and the fault ids of every edge are given in one of the documented forms (none, -1, an int, a set of ints; under \"fault_ids\" or \"qubit_id\" but not both); otherwise there is an exception. The Matching graph has an edge between two nodes exactly if the given graph has one whose weight is not too large, with the fault ids, weight and error probability of the first of the lightest such edges (missing weights are 1, missing probabilities -1); its boundary is the set of nodes with is_boundary; it has the least number of nodes and of fault ids that suffices (fault ids: of the first edge between each two nodes). Writing: a Matching graph written by to_rustworkx and read back is the same graph, where the virtual boundary, if used, has become one more boundary node, and a Matching object made from it answers every request for a decoding rightly for the original graph. The same holds of to_networkx if the boundary nodes and the last node have edges; without that, detectors are lost and boundary nodes become detectors.", "quantifier": "every graph with any nodes, edges and attributes (reading); every graph that calls, detector error models, check matrices or reading can make, with distinct fault ids in range on each edge, and every sequence of requests that it accepts (writing)", "why_tests_cant": "all graphs, attribute forms and orders of edges; the answers are minima over exponentially many corrections, compared across two different graphs", "anchors": ["src/pymatching/matching.py: load_from_networkx, load_from_rustworkx, to_networkx, to_rustworkx, edges", "src/pymatching/sparse_blossom/driver/user_graph.pybind.cc: get_edges, add_edge"]}
{"id": "C60", "title": "num_fault_ids is determined exactly by the calls made", "statement": "After any sequence of calls, num_fault_ids is the largest of: the number given on construction, the numbers ensured by ensure_num_fault_ids, and one more than each fault id of each call that added an edge between two nodes that had none. Fault ids given to an edge that was there already do not count, whatever the merge strategy (this is why C27 fails).", "quantifier": "every sequence of add_edge, add_boundary_edge, set_boundary_nodes and ensure_num_fault_ids calls, every numeric type", "why_tests_cant": "depends on the whole history of calls, of any length", "anchors": ["src/pymatching/sparse_blossom/driver/user_graph.cc: add_or_merge_edge, add_or_merge_boundary_edge, merge_edge_or_boundary_edge, set_min_num_observables"]}
{"id": "C61", "title": "The flag for error probabilities is determined exactly by the history", "statement": "all_edges_have_error_probabilities is true if and only if at no time since the graph was constructed did an edge of it lack an error probability in [0,1].", "quantifier": "every sequence of calls that modify the graph, every numeric type without NaN", "why_tests_cant": "depends on the whole history of calls, of any length", "anchors": ["src/pymatching/sparse_blossom/driver/user_graph.cc: add_or_merge_edge, add_or_merge_boundary_edge, merge_edge_or_boundary_edge"]}
{"id": "C62", "title": "A decoder that finds no perfect matching raises an exception and goes on to decode correctly", "statement": "On the radix heap and with 32-bit integers, each syndrome of a session is answered with a correction of minimum weight, or an exception is raised, and this exactly if it has no correction; after an exception the decoder and its heap are as good as new for the syndromes that follow. The graph must be one in which nodes that paths join are less than 2^31 apart, for instance one whose number of nodes times its largest weight is below that.", "quantifier": "every such graph, weights of either sign, every sequence of syndromes with or without corrections", "why_tests_cant": "the state left behind by the exception depends on where the search for alternating trees stopped; any number of decodes can follow", "anchors": ["src/pymatching/sparse_blossom/driver/mwpm_decoding.cc: process_timeline_until_completion", "src/pymatching/sparse_blossom/matcher/mwpm.cc: reset", "src/pymatching/sparse_blossom/tracker/radix_heap_queue.h: clear, reset"]}
{"id": "C63", "title": "A check matrix given from Python is the matrix that is decoded with", "statement": "load_from_check_matrix takes matrices as scipy arrays of compressed sparse columns, possibly with stored zeros, most arguments as one number for all or an array, and some under two names. Whatever the arguments stand for, the call is accepted if no column has more than two ones and the arrays have the right lengths, and decoding then finds a cheapest explanation for that matrix; with the default faults and one round the prediction is a cheapest solution of the linear system, and a system without solution raises. An accepted call gives a matrix, a known strategy, no negative repetitions and nothing twice, has arrays of the right lengths and at most two non-zero values in each column, all congruent to 1 modulo 256. If the arrays of the matrices are well formed, every call returns or raises: nothing is read outside an array.", "quantifier": "every pair of sparse matrices and every combination of the arguments, any number of repetitions", "why_tests_cant": "the arrays of one matrix can be laid out in many ways (stored zeros, rows in any order), in combination with any of the arguments and any syndrome", "anchors": ["src/pymatching/matching.py: load_from_check_matrix", "src/pymatching/sparse_blossom/driver/user_graph.pybind.cc: CompressedSparseColumnCheckMatrix, sparse_column_check_matrix_to_matching_graph"]}
{"id": "C64", "title": "Errors of less than half the distance are corrected", "statement": "The distance of a code, given as a graph, a check matrix measured in several rounds or a detector error model, is the least weight of errors that cause no detection events but flip an observable. If the errors that happen weigh less than half the distance (by a margin for rounding if the weights are not integers), the predicted observables are exactly those that the errors flip. For detector error models with one probability and no two mechanisms on the same detectors the number of errors counts and no margin is needed (up to 2^23 mechanisms); pymatching count_mistakes then reports no mistakes and predict writes the observables that were flipped.", "quantifier": "every graph with non-negative weights, check matrix, uniform detector error model, distance and set of errors under half of it, any sequence of calls before, any number of shots", "why_tests_cant": "the errors below half the distance are exponentially many, and the distance is not bounded", "anchors": ["src/pymatching/sparse_blossom/driver/mwpm_decoding.cc: decode_detection_events", "src/pymatching/matching.py: decode, load_from_check_matrix", "src/pymatching/sparse_blossom/driver/namespaced_main.cc: main_predict, main_count_mistakes"]}
{"id": "C65", "title": "The Python methods that make and inspect a graph behave as a table of edges", "statement": "The replies to any sequence of calls of add_edge, add_boundary_edge, set_boundary_nodes, ensure_num_fault_ids, has_edge, has_boundary_edge, get_edge_data, get_boundary_edge_data, edges, boundary, num_nodes, num_edges, num_detectors and num_fault_ids are those of a table with one entry for each unordered pair of nodes (or node and virtual boundary): an edge that is added is read back from either end, with the fault ids, weight and error probability given; parallel edges are merged as the strategy says; numbers of nodes, edges, detectors and fault ids are those of the table; and a call that raises an exception (negative node, argument out of range, both fault_ids and qubit_id, unknown or refused merge, no memory for the node) changes nothing. This holds as long as no call names node or fault id 2^64-1 and no boundary node is beyond the memory; otherwise it fails.", "quantifier": "any number of calls with any integers as arguments, any sets of fault ids, any weights, probabilities and strategies, any amount of memory", "why_tests_cant": "sequences of calls and their arguments are unbounded, and running out of memory at a chosen call is hard to provoke", "anchors": ["src/pymatching/matching.py: add_edge, add_boundary_edge, set_boundary_nodes, ensure_num_fault_ids, has_edge, has_boundary_edge, get_edge_data, get_boundary_edge_data, edges", "src/pymatching/sparse_blossom/driver/user_graph.pybind.cc: add_edge, add_boundary_edge, get_edges, get_edge_data, get_boundary_edge_data", "src/pymatching/sparse_blossom/driver/user_graph.cc: add_or_merge_edge, add_or_merge_boundary_edge, set_boundary"]}
{"id": "C66", "title": "The reported weights depend on the graph and the events only, not on numbering, order or history", "statement": "If two Matching objects have, after any calls, graphs that are the same but for the numbers of the nodes and the order and orientation of the edges, and decode the same events (alone or as shots of a batch, packed or not), they report exactly the same weights, to the last bit of the doubles, or both raise an exception. In particular edges between different pairs of nodes may be added in any order. If all corrections that are as light as any flip the same observables, the predictions agree as well.", "quantifier": "any two sequences of calls, any graphs and renumberings, any events, any weights within the ranges stated (32-bit times)", "why_tests_cant": "pairs of histories, graphs and renumberings are unbounded; ties and the order of events in the queue differ between the two runs in ways that no set of samples covers", "anchors": ["src/pymatching/matching.py: decode, decode_batch", "src/pymatching/sparse_blossom/driver/user_graph.h: iter_discretized_edges, to_matching_or_search_graph_helper", "src/pymatching/sparse_blossom/driver/user_graph.cc: get_edge_weight_normalising_constant", "src/pymatching/sparse_blossom/driver/mwpm_decoding.cc: decode_detection_events"]}
{"id": "C67", "title": "What add_noise samples can be decoded, and is corrected below half the distance", "statement": "Whatever numbers are drawn, add_noise returns the observables that the flipped edges flip together with their detection events (0 at boundary nodes), as an array that decode accepts. Decoding it raises no exception; the prediction differs from the sampled observables only by those of a set of edges without detection events, and the reported weight is not more than that of the flipped edges. If the flipped edges weigh less than half the distance, the prediction is what was sampled. Edges of probability 0 are never flipped, those of probability 1 always; None is returned if an edge has no probability.", "quantifier": "any calls that make the graph, any graph, any numbers drawn, any weights and sets of flipped edges within the ranges stated (32-bit times)", "why_tests_cant": "graphs and sets of flipped edges are unbounded; sampling tests see only likely sets of flipped edges", "anchors": ["src/pymatching/matching.py: add_noise, decode", "src/pymatching/sparse_blossom/driver/user_graph.cc: add_noise", "src/pymatching/sparse_blossom/driver/user_graph.pybind.cc: add_noise", "src/pymatching/sparse_blossom/driver/mwpm_decoding.cc: decode_detection_events"]}
{"id": "C68", "title": "Arrays of integers are read modulo 256", "statement": "The arrays of detection events given to decode, decode_batch and the other decoding methods are converted to uint8 first. Called with any arrays of integers, the replies are right for the arrays of bytes to which they are congruent modulo 256; shapes are not changed, an entry counts as a detection event if and only if it is no multiple of 256, and of the entries of bit-packed shots the lowest eight bits count. That every nonzero entry counts is false: an entry 256 is lost without an exception.", "quantifier": "any series of calls, any arrays of integers of any shape", "why_tests_cant": "entries, shapes and series of calls are unbounded; tests use binary arrays", "anchors": ["src/pymatching/matching.py: _syndrome_array_to_detection_events", "src/pymatching/sparse_blossom/driver/user_graph.pybind.cc: decode_batch"]}
{"id": "C69", "title": "Matched detection events of graphs with negative weights raise an exception, and nothing else suffers", "statement": "decode_to_matched_dets_array and decode_to_matched_dets_dict raise an exception if some edge has a weight that is negative by more than half the distance of two weights that can be told apart (by anything, if all weights are integers), whatever the detection events are. If the negative weights are so small beside another weight that they are taken for zero, the pairs returned are right. Either way all calls before and after, in any order, are answered as they should be. That every negative weight raises an exception is false.", "quantifier": "any series of calls on one Matching object, any graph, any detection events, any weights within the ranges stated (32-bit times)", "why_tests_cant": "series of calls and graphs are unbounded; the exception depends on whether rounded weights that survive the conversion of boundary edges are negative", "anchors": ["src/pymatching/sparse_blossom/driver/mwpm_decoding.cc: decode_detection_events_to_match_edges", "src/pymatching/sparse_blossom/driver/user_graph.pybind.cc: decode_to_matched_detection_events_array, decode_to_matched_detection_events_dict", "src/pymatching/sparse_blossom/driver/user_graph.h: to_matching_or_search_graph_helper", "src/pymatching/matching.py: decode_to_matched_dets_array, decode_to_matched_dets_dict"]}
{"id": "C70", "title": "The nodes on a shortest path are those of a path that no other is shorter than, at any time", "statement": "UserGraph::get_nodes_on_shortest_path_from_source ends, and lists in order the nodes, boundary nodes left out, of a path in the graph from the source to the destination, such that no path is lighter (exactly if all weights are integers, otherwise up to half a step for every edge); asked from the boundary to a node, it lists a path from that node to the boundary backwards; asked from the boundary to the boundary, it raises an exception. All other calls before and after are answered as they should be. For a node that is not in the graph it reads past the end of the list of nodes before it raises the exception meant for this case, and if there is no path, or source and destination are the same node, it follows a null pointer.", "quantifier": "any series of calls that change a graph, decode with it, and ask for shortest paths; any graph without negative weights, any two different nodes between which there is a path (32-bit times)", "why_tests_cant": "graphs, series of calls and paths are unbounded; a test shows one path, not that none is lighter, and undefined behaviour need not show", "anchors": ["src/pymatching/sparse_blossom/driver/user_graph.cc: get_nodes_on_shortest_path_from_source, is_boundary_node, get_mwpm_with_search_graph", "src/pymatching/sparse_blossom/search/search_flooder.h: iter_edges_on_shortest_path_from_source"]}
{"id": "C71", "title": "Both ways to take a finished matching apart agree", "statement": "The recursion over blossoms that adds up observables and weights, and the one that collects match edges, succeed or fail alike from every state of the decoder and leave the same decoder behind; the observables of the first are the XOR of those of the match edges of the second. From an idle decoder both end with an idle decoder and an empty queue; the weight is that of a best correction and also the sum of the shortest distances between the ends of the match edges, in which every event occurs once. decode_detection_events_to_match_edges, which leaves out the events made by negative weights, gives the same if there are none; with some it would leave their regions behind in the decoder.", "quantifier": "every graph, every state of the decoder and the queue, every syndrome, any nesting of blossoms (C71_same_end); every idle decoder and syndrome that can be explained within 32-bit times (C71_decode)", "why_tests_cant": "the two recursions are separate copies of the same steps, used for different calls; a difference would show only for some nesting of blossoms, in the next syndrome", "anchors": ["src/pymatching/sparse_blossom/matcher/mwpm.cc: pair_and_shatter_subblossoms_and_extract_matches, shatter_blossom_and_extract_matches, pair_and_shatter_subblossoms_and_extract_match_edges, shatter_blossom_and_extract_match_edges", "src/pymatching/sparse_blossom/driver/mwpm_decoding.cc: shatter_blossoms_for_all_detection_events_and_extract_obs_mask_and_weight, shatter_blossoms_for_all_detection_events_and_extract_match_edges, decode_detection_events, decode_detection_events_to_match_edges"]}
{"id": "C72", "title": "Listing the event queue gives its events in order", "statement": "After any legal history of the event queue, to_vector() gives all pending events, in order of their times, and satisfies_invariants() returns true.", "quantifier": "every clock width, every legal sequence of operations on the queue, every payload", "why_tests_cant": "the events left out are those whose times differ from the present in the highest of 32 bits: the clock has to come close to 2^31 first", "anchors": ["src/pymatching/sparse_blossom/tracker/radix_heap_queue.h: to_vector, satisfies_invariants"]}
{"id": "C73", "title": "Loading a graph replaces the whole graph of the Matching object, or changes nothing", "statement": "A Matching object can be loaded with check matrices, networkx or rustworkx graphs and detector error models at any time, between other calls. A function that loads either returns, and from then on every call is answered for the new graph and the changes made since; or it raises an exception, and the object goes on as before, with the same graph. No reply depends on an earlier graph or on the decoder made for it.", "quantifier": "every sequence of loads, changes and decoding calls, of any length, on graphs of any size; weights of check matrices and detector error models within the limit of add_edge", "why_tests_cant": "tests load once into a new object; the state left by earlier graphs, by failed loads and by failed decodings combines in unboundedly many ways", "anchors": ["src/pymatching/matching.py: Matching.__init__, load_from_check_matrix, load_from_networkx, load_from_rustworkx, _load_from_detector_error_model", "src/pymatching/sparse_blossom/driver/user_graph.cc: get_mwpm, update_mwpm"]}
{"id": "C74", "title": "The functions that look at the decoder's data tell the truth", "statement": "In every state of the decoder between two events, the operators <=, <, > and >= of regions say which region lies in which; the structural operators == of regions and of alternating tree nodes hold only between an object and itself; the radius of a node bounded by a region is the sum of the radii of the regions it lies in that are not around that region, less the radius at which it was reached, and equals the cached local radius that the flooder works with when bounded by the outermost region; find_root ends at the root; all_nodes_in_tree lists each node below once. All of these loops end.", "quantifier": "every graph, every syndrome, negative weights or not, every state the main loop passes through, every order of events of equal times, every region, node and time", "why_tests_cant": "tests build a handful of regions and trees by hand; that parent pointers never form a cycle, that cached radii agree with the nested ones, and that two different regions never look alike has to hold in every state of every run", "anchors": ["src/pymatching/sparse_blossom/flooder/graph_fill_region.cc: tree_equal, operator<=, operator<, operator>, operator>=", "src/pymatching/sparse_blossom/flooder/detector_node.cc: compute_local_radius_at_time_bounded_by_region", "src/pymatching/sparse_blossom/matcher/alternating_tree.cc: find_root, tree_equal, all_nodes_in_tree"]}
{"id": "C75", "title": "A virtual boundary and a boundary node are the same to the decoder", "statement": "A check matrix loaded with use_virtual_boundary_node=True and with False is accepted by both or refused by both. The two graphs have the same edges in the same order, with an additional boundary node in place of the virtual boundary, which is there exactly if an edge leads to it. For the same detection events both Matching objects report exactly the same weight, or both raise an exception, for single syndromes and batches; and the rows, edges, pairs and dictionaries that are right answers for the one are right answers for the other.", "quantifier": "every check matrix with row indices in range, every number of rounds, every merge strategy, weights and probabilities, every syndrome and batch, with or without an entry for the boundary node", "why_tests_cant": "tests compare the two ways on a few repetition codes; the edges of the two graphs are found and merged through different branches of the code, and rounding, negative weights, several rounds and ties have to come out alike for all matrices", "anchors": ["src/pymatching/matching.py: load_from_check_matrix (use_virtual_boundary_node)", "src/pymatching/sparse_blossom/driver/user_graph.pybind.cc:525-603", "src/pymatching/sparse_blossom/driver/user_graph.cc: add_or_merge_edge, add_or_merge_boundary_edge, to_matching_graph"]}
{"id": "C76", "title": "The reported weights are a measure of distance", "statement": "If no edge has a negative weight then no reported weight is negative, a shot without events has weight exactly zero, and a shot whose events are those of exactly one of two other shots has a weight of at most the sum of theirs, up to a relative error of 2^-47 from rounding to doubles, and exactly so with integral weights up to 2^51; and it raises no exception unless one of the two does. If one graph has all edges of another one, the same boundary nodes, and integral weights of either sign, then the same events never have a larger weight in it and never raise an exception that they do not raise in the other. The same holds if the other graph has, for every edge, one between the same nodes that weighs no more.", "quantifier": "every series of calls that makes and uses a Matching object, every syndrome, every batch and any three of its shots, packed or not; every pair of objects of which the graph of one contains that of the other", "why_tests_cant": "the inequality relates the results of three decodings, or of two graphs; tests compare single results with recorded values, and a correction that is slightly too heavy for a rare combination of events goes unnoticed", "anchors": ["src/pymatching/matching.py: decode, decode_batch", "src/pymatching/sparse_blossom/driver/mwpm_decoding.cc: decode_detection_events", "src/pymatching/sparse_blossom/driver/user_graph.cc:422-467 (get_edge_weight_normalising_constant)"]}
{"id": "C77", "title": "Arithmetic on cyclic clocks is arithmetic on times", "statement": "Any series of increments, decrements, additions and subtractions on a cyclic clock of w bits leaves it at the time modulo 2^w, and every value returned on the way, old or new, is right. For any two values the four comparisons and the two equalities fit together, a value is less than another exactly if fewer than half a period of increments leads from it to the other, and moving both clocks by the same time changes no comparison. (Less-than is not transitive over more than half a period.)", "quantifier": "every width, every series of operations, every pair of clock values", "why_tests_cant": "tests use small widths and a few values; wrap-around, signed offsets and the edge of the half period have to be right for all 2^64 pairs of 32-bit values", "anchors": ["src/pymatching/sparse_blossom/tracker/cyclic.h:43-97"]}
{"id": "C78", "title": "Compressed edges, events and results compose and compare as they should", "statement": "merged_with of two compressed edges that summarise walks, one starting where the other ends, summarises the joined walk, and reversed summarises the walk back: start, end, and parity of every observable. Events compare equal exactly if they are the same event or the same collision told from the other side, which is an equivalence relation; queued events compare equal exactly if time, type and, unless there is no event, pointer are the same, and an unknown type raises an exception. Results add up associatively and commutatively, for many observables entry by entry provided the other vector is not shorter.", "quantifier": "all compressed edges and walks of any length, all events, all results", "why_tests_cant": "tests compare a few hand-written edges and events; symmetry, transitivity and the correspondence with walks are statements about all of them", "anchors": ["src/pymatching/sparse_blossom/flooder_matcher_interop/compressed_edge.h:42-66, compressed_edge.cc", "src/pymatching/sparse_blossom/flooder_matcher_interop/mwpm_event.cc:88-149, region_edge.cc", "src/pymatching/sparse_blossom/tracker/flood_check_event.cc", "src/pymatching/sparse_blossom/flooder/match.cc", "src/pymatching/sparse_blossom/matcher/alternating_tree.cc:32-38", "src/pymatching/sparse_blossom/matcher/mwpm.cc:425-449", "src/pymatching/sparse_blossom/driver/mwpm_decoding.cc:19-51"]}
{"id": "C79", "title": "The exit status of the command line programs", "statement": "The executable ends with status 0 exactly if the command is known and its program returns 0, and with status 1 if the command is unknown or its program stops with an exception; predict with a sound model and sound shots ends with status 0. The script that is installed with the Python package ends with status 1 if the command is unknown, but with status 0 whenever the command is known, whether its program succeeds or stops with an exception; so it hides failures.", "quantifier": "all arguments, all outcomes of the three programs, all sound models and shots", "why_tests_cant": "tests call the functions directly and look at what is written; the script is never run, and no test makes a program fail through it", "anchors": ["src/pymatching/sparse_blossom/driver/namespaced_main.cc:182-222", "src/main.cc:20-27", "src/pymatching/pymatching.pybind.cc:23-30", "src/pymatching/_cli_argv.py", "setup.py:153-155"]}
{"id": "C80", "title": "Different methods asked about one syndrome give answers that fit together", "statement": "After any calls that make a graph, and among any calls that only ask, decode and each of decode_to_edges_array, decode_to_matched_dets_array and decode_to_matched_dets_dict asked about the same syndrome both raise an exception or both answer. The weight from decode is the total weight of the edges from decode_to_edges_array, which explain the events, and these edges flip the predicted observables if all lightest corrections flip the same ones. It is also the total weight of sets of edges that join the matched pairs, and no such sets weigh less. The weights are equal if all edges have integral weights and equal up to rounding otherwise. The same holds for every shot of decode_batch that has the events of the syndrome.", "quantifier": "all series of calls that make a graph, all later calls that ask in any order, all pairs of such calls about the same syndrome", "why_tests_cant": "tests compare the methods on a few graphs and syndromes; with ties between corrections the methods find different edges, so only the weights can be compared, for all graphs", "anchors": ["src/pymatching/matching.py:218-346", "src/pymatching/matching.py:462-524", "src/pymatching/matching.py:526-575", "src/pymatching/matching.py:577-621", "src/pymatching/sparse_blossom/driver/mwpm_decoding.cc"]}
{"id": "C81", "title": "Without detection events nothing is corrected", "statement": "If every weight is positive, by more than rounding to the discrete weights can change it, then a syndrome without detection events (except at boundary nodes) is answered, after whatever was asked before, by a prediction of no flips with weight zero, by no edges, by no pairs and by an empty dictionary; and decode_batch, if no other shot makes it raise an exception, predicts no flips with weight zero for such a shot, packed or not.", "quantifier": "all series of calls that make a graph of positive weights, all later calls that ask in any order, all syndromes and shots without events", "why_tests_cant": "tests decode empty syndromes with a few fresh decoders; residue of earlier calls that shows up only in an empty shot needs particular histories", "anchors": ["src/pymatching/matching.py:218-346", "src/pymatching/sparse_blossom/driver/user_graph.pybind.cc:240-345", "src/pymatching/sparse_blossom/driver/mwpm_decoding.cc:160-250"]}
{"id": "C82", "title": "Separate parts of a graph are decoded independently", "statement": "If no edge joins two parts of a graph other than at boundary nodes, then decode raises an exception for a syndrome exactly if it raises one for the events in the one part or for the events in the other. If also no weight is negative, the weight reported for a shot is the sum of the weights reported for its events in the two parts, up to a factor of 1 + 2^-47, and exactly if all weights are integers and the two weights are at most 2^51. If moreover all lightest corrections flip the same observables and all weights are integers, the prediction is the exclusive or of those for the parts.", "quantifier": "all series of calls, all graphs and all divisions of them into two parts that no edge joins, all shots of one decode_batch and all syndromes", "why_tests_cant": "regions of both parts grow at the same time, so an event of the one part can disturb the other only for particular timings of collisions; tests compare the parts of a graph for no syndrome", "anchors": ["src/pymatching/sparse_blossom/driver/mwpm_decoding.cc:160-250", "src/pymatching/sparse_blossom/flooder/graph_flooder.cc:1-400", "src/pymatching/sparse_blossom/driver/user_graph.pybind.cc:240-345"]}
