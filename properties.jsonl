{"id": "C01", "title": "Octree index arithmetic is a coherent tree", "statement": "Taking child w (0..7) of an index and then the parent gives the index back, and which_child of that child is w; every index of level at least one is the which_child-th child of its parent; the n-fold parent of an index equals n single parent steps; going up at least as many levels as there are gives the root; distinct (index, w) pairs have distinct children; an index is inside the grid of its level iff all its children are inside the grid of the next level.", "quantifier": "for every index (any coordinates, any level) and every child number 0..7", "why_tests_cant": "Indices range over unboundedly many coordinate/level combinations; tests sample a few, the tree walks rely on all of them.", "anchors": ["include/dashmm/index.h: Index::parent, Index::child, Index::which_child, Index::operator=="]}
{"id": "C02", "title": "Uniform-grid slot number is a bijection and follows ancestry", "statement": "At uniform level L, 0 <= L <= 10, the slot number of a cell is a bijection between the 8^L cells of that level and the numbers 0..8^L-1. The slot reported for any index at or below level L is the slot of its ancestor at level L; -1 is reported exactly for indices above level L. The bound on L is the largest possible: at level 11 the 32-bit key wraps and two cells share it (refuted).", "quantifier": "for every uniform level and every index in the grid of its level", "why_tests_cant": "Requires injectivity and surjectivity over all cells of all levels.", "anchors": ["include/dashmm/tree.h: Tree::simple_key, Tree::get_unif_grid_index"]}
{"id": "C03", "title": "The preallocated top of the tree is the complete octree", "statement": "After basic set-up with uniform level L>=1, walking from the root by child numbers reaches, for every index of level <= L, exactly one preallocated node, which carries that index; its parent link leads to the node carrying the parent index; every preallocated slot is reached; the slot of a level-L node is its uniform-grid slot number and no two writes go to the same node.", "quantifier": "for every uniform level L>=1 and every index of level at most L", "why_tests_cant": "Correctness for all L needs an induction over levels; tests run one or two values of L (they depend on the number of ranks).", "anchors": ["include/dashmm/tree.h: Tree::setup_basics_handler"]}
{"id": "C04", "title": "Index lookup finds the node it names", "statement": "For a tree whose nodes carry the indices given by their path from the root, looking up the address of a node by index returns the slot of the node with that index when it is in the tree; the walk never takes a wrong turn; when the index is absent the lookup does not silently return another node.", "quantifier": "for every tree shape and every index", "why_tests_cant": "All shapes of adaptive trees; a wrong turn at an untested depth misroutes contributions between ranks silently.", "anchors": ["include/dashmm/tree.h: Tree::lookup_lco_addx", "include/dashmm/dualtree.h: DualTree::lookup_lco_addx"]}
{"id": "C05", "title": "Hilbert numbering visits every cell exactly once", "statement": "For a grid with 2^l cells per side the Hilbert key maps the 8^l cells one-to-one onto 0..8^l-1, so every cell appears exactly once in curve order and the inverse map used for rank assignment is total.", "quantifier": "for every level l and every cell", "why_tests_cant": "The claim is a bijection for all l; exhaustive tests only reach small l.", "anchors": ["src/hilbert.cc: hilbert_key, h_indicies, h_transforms, distribute_points_hilbert"]}
{"id": "C06", "title": "Consecutive Hilbert keys are face neighbours", "statement": "Two cells whose Hilbert keys differ by one share a face (they differ by one step along one axis), so a contiguous key range is a connected region.", "quantifier": "for every level l and every pair of consecutive keys", "why_tests_cant": "Quantifies over all levels; a wrong entry of the transform table can first break adjacency at a level no test uses.", "anchors": ["src/hilbert.cc: hilbert_key, h_indicies, h_transforms"]}
{"id": "C07", "title": "Morton key is injective and monotone in the tree order", "statement": "For coordinates below 2^21 the Morton key interleaves the bits of the three coordinates exactly: it is injective, its value is below 2^63, the key of a child is eight times the key of the parent plus the child number.", "quantifier": "for every triple of 21-bit coordinates", "why_tests_cant": "2^63 inputs; the mask constants must be right for all bits.", "anchors": ["src/hilbert.cc: split, morton_key"]}
{"id": "C08", "title": "Rank partition of the curve is total, contiguous and in range", "statement": "Given non-negative cell counts along the curve and np>=1 ranks, the assignment runs without touching memory outside its arrays and without a failing assertion exactly if np = 1, or there are at least np points and the first cell holds fewer than twice total/np points; it then gives each cell a rank in 0..np-1 and ranks never decrease along the curve. With fewer points than ranks it reads cumulative[-1]; with a heavier first cell the assertion fails (both refuted).", "quantifier": "for every list of counts and every number of ranks", "why_tests_cant": "Depends on cumulative sums at all inputs; the failing inputs (few points, one heavy first cell) are not the ones benchmarks use.", "anchors": ["src/hilbert.cc: partition, distribute_points_hilbert"]}
{"id": "C09", "title": "Rank partition cut points are the nearest cell boundaries to the ideal share", "statement": "When the partition succeeds, each cut between rank r-1 and r is placed at a cell boundary whose cumulative count is at least as close to r*floor(total/np) as any other cell boundary, so no rank exceeds its ideal share by more than the heaviest cell (plus the rounding remainder for the last rank).", "quantifier": "for every list of counts and every number of ranks on which the partition succeeds", "why_tests_cant": "Optimality over all boundaries for all inputs.", "anchors": ["src/hilbert.cc: partition"]}
{"id": "C10", "title": "Bounding box is the exact hull and independent of reduction order", "statement": "The global domain computed from any distribution of the records over ranks, combined in any order, is the componentwise min/max of all source and target positions (when positions lie within the identity bounds); the cubic domain built from it has every point inside, is centred on the hull and its side is the largest extent.", "quantifier": "for every distribution of points over ranks, every order of reduction", "why_tests_cant": "Reductions are applied in schedule-dependent order with schedule-dependent grouping.", "anchors": ["include/dashmm/dualtree.h: set_domain_geometry_handler, domain_geometry_init_handler, domain_geometry_op_handler, init_partition_handler", "include/dashmm/domaingeometry.h", "src/domaingeometry.cc"]}
{"id": "C11", "title": "Every point is assigned to the uniform cell that contains it", "statement": "For every set of points in a domain of positive side and every uniform level up to 10, the uniform cell number of each point is in 0..8^L-1 and the point lies in the box of that cell (half-open except on the upper domain faces); counts per cell add up to the number of points and count exactly the points assigned to the cell. If all points coincide the side is 0 and the conversion to int is undefined (refuted).", "quantifier": "for every set of points in a non-degenerate domain and every uniform level (exact arithmetic)", "why_tests_cant": "All real positions including cell and domain boundaries.", "anchors": ["include/dashmm/tree.h: assign_points_to_unif_grid_handler"]}
{"id": "C12", "title": "Grouping points by cell is a stable in-place permutation", "statement": "Grouping rearranges the records into exactly the same multiset, ordered by cell number, with records of one cell kept in original relative order; offset[c] is the position of the first record of cell c; every loop terminates and every access stays in bounds.", "quantifier": "for every array of records, every cell assignment in range with matching counts", "why_tests_cant": "The in-place cycle-following loop must be right for every permutation.", "anchors": ["include/dashmm/tree.h: group_points_on_unif_grid_handler"]}
{"id": "C13", "title": "Point exchange messages decode to what was sent and fit their buffer", "statement": "The message one rank sends another, decoded by the receiver using the shared rank map, delivers to each of the receiver's cells exactly the sender's records for that cell, in order; the acquired parcel is at least as large as what is written.", "quantifier": "for every rank map, every per-cell count, every record data, both S==T and S!=T modes, with any serializer that satisfies its round-trip contract", "why_tests_cant": "The layout depends on which of the counts are zero and on per-record sizes.", "anchors": ["include/dashmm/dualtree.h: send_points_handler, recv_points_handler", "include/dashmm/serializer.h"]}
{"id": "C14", "title": "Point merging is lossless and starts refinement exactly once, for any arrival order", "statement": "For each uniform cell, whatever order the local and remote batches arrive in, every slot of the cell's segment is written exactly once, the final content is the concatenation in arrival order of all batches, and refinement of the cell is started exactly once, by the batch that completes it and not before.", "quantifier": "for every family of batches whose sizes add up to the global count and every arrival order (interleaving)", "why_tests_cant": "Arrival order is chosen by the network and scheduler.", "anchors": ["include/dashmm/tree.h: initPointExchange, merge_points_handler, merge_points_same_s_and_t_handler", "include/dashmm/node.h: Node::increment_first"]}
{"id": "C15", "title": "Adaptive refinement partitions the points over the leaves", "statement": "When refinement of a node finishes: leaf segments are disjoint, consecutive and cover the node's records, which are a permutation of the input; every leaf is non-empty and holds at most threshold records; every internal node holds more than threshold records; every record lies in the half-open octant region of every node that contains it; each child index is the parent's child of that number.", "quantifier": "for every set of points, every threshold and every tie-breaking behaviour of the in-place partition step", "why_tests_cant": "All point sets; the unstable partition may permute arbitrarily within its contract.", "anchors": ["include/dashmm/node.h: partition_node_handler"]}
{"id": "C16", "title": "Refinement terminates when no more than threshold points coincide", "statement": "If every two distinct positions differ by at least some positive distance in some coordinate and at most threshold records share a position, refinement stops after a depth bounded by the logarithm of domain size over that distance.", "quantifier": "for every point set satisfying the separation condition (and: never terminates for any set with more than threshold coincident points)", "why_tests_cant": "Non-termination cannot be observed by a test; termination for all inputs needs a measure.", "anchors": ["include/dashmm/node.h: partition_node_handler"]}
{"id": "C17", "title": "With identical sources and targets, both trees are the same", "statement": "When sources and targets are the same array, the target tree built from the already sorted source records by searching split points has exactly the same shape, the same segments and the same indices as the source tree.", "quantifier": "for every set of points and threshold", "why_tests_cant": "Relies on the sorted prefix property of every node at every depth.", "anchors": ["include/dashmm/node.h: partition_node_handler (same_sandt)", "include/dashmm/tree.h: initPointExchangeSameSAndT"]}
{"id": "C18", "title": "Completion of a branch is signalled exactly once, after all its nodes are done, in every schedule", "statement": "The completion gate of a uniform cell fires exactly once, only after every node of the branch has been created and partitioned, and it does fire in every maximal schedule of the partition tasks; no gate receives more than its eight inputs.", "quantifier": "for every tree shape and every interleaving of the partition tasks and gate continuations", "why_tests_cant": "Interleavings.", "anchors": ["include/dashmm/node.h: partition_node_handler, add_completion", "include/dashmm/tree.h: sendNode"]}
{"id": "C19", "title": "Branch compression and extraction are inverse", "statement": "Extracting the compressed representation of a branch on another rank recreates exactly the same shape, with the right indices; the number of entries written equals the advertised node count; the block freed at tree deletion (the first present child of the cell) is the start of the extracted block.", "quantifier": "for every branch shape", "why_tests_cant": "All octree shapes of any depth.", "anchors": ["include/dashmm/node.h: compress, extract, n_descendants", "include/dashmm/tree.h: send_node_handler, recv_node_handler, delete_tree_handler"]}
{"id": "C20", "title": "Pruning keeps exactly the nodes above non-empty cells", "statement": "After pruning, a top node other than the root is reachable from the root iff some uniform cell below it has a positive count; reachable nodes keep their index; the root always remains. A reachable node's parent pointer is the position of its parent, which is reachable too; a removed node above the uniform level has a null parent pointer; the uniform cells keep theirs, also the removed ones.", "quantifier": "for every uniform level and every vector of counts", "why_tests_cant": "All count vectors at all levels.", "anchors": ["include/dashmm/tree.h: pruneTopnodes", "include/dashmm/node.h: remove_child, removeDownwardLinks"]}
{"id": "C21", "title": "Array allocation reports the right lengths", "statement": "After a successful allocation with per-rank counts, each rank's local length is its own count, every rank reports the same total which is the sum of the counts, whatever order the ranks contribute; allocating an already allocated Array returns kDomainError and changes nothing; failure on one rank is reported on all ranks.", "quantifier": "for every number of ranks, all counts and every order of reduction", "why_tests_cant": "Reduction order and rank counts.", "anchors": ["include/dashmm/array.h: allocate, allocate_local_work_handler, count, length", "src/reductionops.cc"]}
{"id": "C22", "title": "Array::get returns exactly the requested records or a domain error", "statement": "get(first,last) with first<=last<=local count copies exactly records first..last-1 in order and changes nothing else; otherwise nothing is copied; the code returned on every rank is kSuccess iff all ranks had a valid range.", "quantifier": "for every array content, every range on every rank", "why_tests_cant": "All ranges; rank-dependent arguments.", "anchors": ["include/dashmm/array.h: get, array_get_handler"]}
{"id": "C23", "title": "Array::put replaces exactly the requested records only for first=0", "statement": "put(first,last,data) with a valid range should read exactly last-first input records and replace exactly records first..last-1, leaving all else alone. The code copies last records instead: it is right exactly when first=0; otherwise, given enough input, it replaces records first..first+last-1, or writes past the segment when first+last exceeds its length. An invalid range is refused and nothing is written.", "quantifier": "for every array content, every valid range and every input of last-first records", "why_tests_cant": "The written extent depends on first and last for all ranges; tests in the repository put whole segments only.", "anchors": ["include/dashmm/array.h: put, array_put_handler"]}
{"id": "C24", "title": "Array::collect gathers all records, in rank order, for any message order", "statement": "collect on rank 0 returns the concatenation of all ranks' local records in rank order, whatever order the rank replies are processed in and whatever the per-record serialized sizes; it leaves the array unchanged.", "quantifier": "for every distribution of records, every serializer satisfying the round-trip contract with positive sizes, every arrival order", "why_tests_cant": "Arrival order and variable serialized sizes.", "anchors": ["include/dashmm/array.h: collect, array_collect_handler, array_collect_request_handler, array_collect_receive_handler"]}
{"id": "C25", "title": "forEach applies the action to each record exactly once", "statement": "forEach splits the local records into consecutive chunks that cover every record exactly once and no record outside, and completion is signalled after exactly the advertised number of chunk completions, for any schedule of the chunk tasks.", "quantifier": "for every record count, thread count and oversubscription factor", "why_tests_cant": "All combinations of three integers and all schedules.", "anchors": ["include/dashmm/arrayforeachaction.h: root_handler, spawn_handler"]}
{"id": "C26", "title": "ArrayRef::slice never designates memory outside the reference", "statement": "slice(offset,n) yields a reference to exactly the n records starting at offset when offset+n is within the reference, and the null reference otherwise.", "quantifier": "for every reference and all 64-bit offset and length values", "why_tests_cant": "2^128 argument pairs; the failing ones need size_t wrap-around.", "anchors": ["include/dashmm/arrayref.h: ArrayRef::slice"]}
{"id": "C27", "title": "Buffer reads return what was written, never crossing the end", "statement": "A sequence of writes that all succeed, replayed as reads of the same sizes from the start of the buffer, returns the same bytes; cursor plus remaining always equals the capacity; no operation touches bytes outside the buffer or at or beyond the written position; a failed array write changes nothing. A byte write, a read and a transfer from another buffer move exactly the bytes that are there and fit, leave all others alone and advance the cursors by that number; interpreting in place gives the position of the bytes a read would return, or null if they do not all fit.", "quantifier": "for every sequence of operations of any sizes on buffers of any capacity", "why_tests_cant": "All operation sequences.", "anchors": ["include/dashmm/buffer.h: Buffer, ReadBuffer, WriteBuffer"]}
{"id": "C28", "title": "ViewSet serialization round-trips in exactly bytes() bytes", "statement": "Serializing a ViewSet into a buffer of bytes() bytes writes every byte of it and interpreting those bytes gives back role, centre, scale and every view's index, size and data.", "quantifier": "for every ViewSet (any number of views with any sizes)", "why_tests_cant": "All view counts and sizes, including empty views.", "anchors": ["src/viewset.cc: ViewSet::bytes, ViewSet::serialize, ViewSet::interpret", "include/dashmm/viewset.h"]}
{"id": "C29", "title": "DAG input counts equal the number of incoming edges in every interleaving", "statement": "After any interleaving of concurrent edge insertions, the input count of each DAG node equals the number of edges pointing to it over all nodes' output lists, and each inserted edge is present exactly once.", "quantifier": "for every set of edges and every interleaving of the locked steps", "why_tests_cant": "Interleavings.", "anchors": ["include/dashmm/dag.h: DAGInfo::link_nodes and the edge operations StoM..ItoI"]}
{"id": "C30", "title": "DAG evaluation delivers every edge exactly once and ends in every schedule", "statement": "If input counts equal incoming edges, then in every schedule (any threads, message orders, ranks) no step fails, each edge is delivered at most once, only after its origin is a source or has all of its inputs; an LCO has triggered exactly when all its inputs (at least one) have arrived, and never twice; a rank is told of the end only when all LCOs it owns have triggered, and once all are told every edge has been delivered and only the release of expansion data is left. If moreover the DAG is acyclic and every LCO has an input, every schedule is finite and ends only with everything delivered, triggered and signalled, and the values delivered and the sums at the targets are those the DAG's equations determine. An LCO without inputs (with or without outputs) makes every schedule hang, which the FMM methods do for some trees. The DAGs of the four methods meet the structural conditions.", "quantifier": "for every DAG and every interleaving of deliveries and triggers", "why_tests_cant": "Interleavings over arbitrary DAGs.", "anchors": ["include/dashmm/expansionlco.h: operation_handler, predicate_handler, spawn_out_edges_handler", "include/dashmm/targetlco.h", "include/dashmm/dualtree.h: start_DAG_evaluation, setup_termination_detection"]}
{"id": "C31", "title": "Every DAG the built-in methods produce can complete", "statement": "For the DAG built by Direct and BH for any pair of trees, every node but the source leaves receives at least one input. For FMM this holds exactly for the nodes other than local expansions of level 2 target boxes for which no source box of level 2 is a non-neighbour and no larger source leaf is at least a box side away; for FMM97 exactly for those other than the level 2 target boxes all of whose level 2 source boxes lie below the same level 1 box and for which no larger source leaf is a box side away. (These exceptions have an output but no input, so the evaluation waits forever; there is a concrete pair of trees.)", "quantifier": "for every pair of source and target trees", "why_tests_cant": "The failing configurations are rare geometries; a test sees only a hang.", "anchors": ["include/builtins/fmm_method.h", "include/builtins/fmm97_method.h", "include/builtins/bh_method.h", "include/builtins/direct_method.h", "include/dashmm/expansionlco.h"]}
{"id": "C32", "title": "Work chunking covers every DAG node exactly once", "statement": "Starting an evaluation, and resetting the DAG for another evaluation, process every local node exactly once, with ranges inside the array, and the number of completions awaited equals the number signalled, for any number of workers.", "quantifier": "for every number of nodes and workers", "why_tests_cant": "All combinations of two integers, in particular fewer nodes than workers and zero nodes.", "anchors": ["include/dashmm/dualtree.h: start_DAG_evaluation_handler", "include/dashmm/evaluator.h: reset_source_LCOs, reset_target_LCOs, reset_something_LCOs"]}
{"id": "C33", "title": "Output edges are sent once per locality with every edge included", "statement": "Sorting output edges by locality and cutting them into runs yields exactly one group per distinct locality; concatenating the groups is a permutation of the edges; each edge goes to the locality of its target; edges whose locality is the local rank are handled directly.", "quantifier": "for every list of edges and every sort outcome", "why_tests_cant": "All edge lists.", "anchors": ["include/dashmm/expansionlco.h: spawn_out_edges_handler", "include/dashmm/dualtree.h: instigate_dag_eval_handler", "include/dashmm/dag.h: compare_edge_locality"]}
{"id": "C34", "title": "Remote edge messages decode to the edges that were sent, addressed to the right tree", "statement": "The parcel carrying a set of edges decodes on the receiver to the same sources or expansion and the same operations, target addresses and target indices. A target address that is not known by the sender is looked up by the receiver in the tree to which the operation's target belongs, except that the receiver of source-leaf edges always looks in the target tree: an StoM edge would get the wrong address, but no such edge is ever put in a message with the built-in methods and policies.", "quantifier": "for every group of edges and every operation kind", "why_tests_cant": "All operation kinds and edge groups.", "anchors": ["include/dashmm/dualtree.h: instigate_dag_eval_handler, instigate_dag_eval_remote_handler, lookup_lco_addx", "include/dashmm/expansionlco.h: spawn_out_edges_remote_handler"]}
{"id": "C35", "title": "Direct method: each source acts on each target exactly once", "statement": "The DAG built by the Direct method contains, for each source leaf and each target leaf, exactly one StoT edge and nothing else.", "quantifier": "for every pair of source and target trees", "why_tests_cant": "All pairs of adaptive trees.", "anchors": ["include/builtins/direct_method.h: process"]}
{"id": "C36", "title": "Barnes-Hut: every source reaches every target exactly once", "statement": "For any acceptance criterion, in the DAG built by BH each (source leaf, target leaf) pair is joined by exactly one path: either a direct StoT edge or one StoM, MtoM*, MtoT chain through exactly one ancestor of the source leaf (or the leaf itself).", "quantifier": "for every pair of trees and every acceptance predicate", "why_tests_cant": "All pairs of trees; double counting or loss at rare geometries only changes digits of the answer.", "anchors": ["include/builtins/bh_method.h: generate, aggregate, process"]}
{"id": "C37", "title": "Barnes-Hut acceptance is safe for all points of the target box", "statement": "BH tests a point of the target box, so it accepts whenever all points of the box see the source node under an opening angle below the requested one, and what it accepts is safe for some point. If the source centre lies below the target box along no axis, the tested point is the nearest and acceptance is safe for every point of the box. If it lies below along some axis, the tested coordinate is the farthest instead, and BH accepts source nodes that some points of the box see under a larger angle than requested.", "quantifier": "for every target box, source box and angle", "why_tests_cant": "All real geometries; wrong only on one side of the box.", "anchors": ["include/builtins/bh_method.h: MAC, nearest"]}
{"id": "C38", "title": "FMM: every source reaches every target exactly once, through well separated boxes only", "statement": "In the DAG built by FMM for any pair of trees on the same domain, each source leaf is joined to each target the method stops at by exactly one path of operators, and each target leaf lies below exactly one such target; the targets it stops at are the largest target boxes at or below the uniform level that are leaves or, if sources and targets differ, have no divided source box of their level as neighbour; each MtoL edge joins boxes of the same level that are not neighbours, each StoL/MtoT edge joins boxes separated by at least the side of the smaller box; no edge is made twice; in every schedule of the tasks both expansions of each edge exist when the edge is made.", "quantifier": "for every pair of adaptive trees", "why_tests_cant": "All pairs of adaptive trees with arbitrary level differences.", "anchors": ["include/builtins/fmm_method.h: generate, aggregate, inherit, process, refine_test, well_sep_test_asymmetric, well_sep_test, proc_coll_recur"]}
{"id": "C39", "title": "FMM97: every source reaches every target exactly once, using merge-and-shift", "statement": "In the DAG built by FMM97 each source leaf is joined to each target the method stops at by exactly one effective path, where an ItoI edge from a source box to a target parent's intermediate expansion acts on exactly those target children that are well separated from the source box; the targets it stops at are those of FMM (C38), and each target leaf lies below exactly one of them.", "quantifier": "for every pair of adaptive trees", "why_tests_cant": "All pairs of trees.", "anchors": ["include/builtins/fmm97_method.h", "src/merge_shift.cc", "include/builtins/merge_shift.h"]}
{"id": "C40", "title": "Merge-and-shift lists are complete, duplicate free and shift by the true displacement", "statement": "For each source box that is a child of the target parent or of one of its neighbours, and each of the eight target children: the tables direct the source's plane-wave expansion to that child exactly once if the two boxes are well separated and not at all otherwise; the direction chosen has an axis distance of two or three boxes, and the accumulated shift of the outgoing and incoming translations is the true displacement; all table subscripts are in range. Holds for the Laplace, Yukawa and Helmholtz kernels, hence for every ItoI edge followed by an ItoL edge of the FMM97 DAG. The Laplace weight estimate is the number of lists used; the Yukawa and Helmholtz estimate is always 0.", "quantifier": "for every relative position of source box and target parent and every target child (hence for every pair of indices)", "why_tests_cant": "A single wrong tag among hundreds changes only a few digits of the potential for particular geometries.", "anchors": ["src/merge_shift.cc: merge_and_shift_table", "src/laplace.cc: Laplace::I_to_I, I_to_L", "src/yukawa.cc: I_to_I, I_to_L", "include/builtins/helmholtz.h: I_to_I, I_to_L", "include/builtins/laplace.h: weight_estimate"]}
{"id": "C41", "title": "Distribution policies give every DAG node a rank in range", "statement": "While the DAG is built, in any order of the visits, the particle nodes and the expansions of the boxes with particles get the rank of the uniform cell they lie in (the FMM97 policy does the same for every node except target intermediate expansions, rank 0 above the cells). Afterwards each policy gives every DAG node a rank in 0..n-1, never reads an unassigned neighbour, and does not move nodes already placed; the BH and FMM97 policies put each remaining node on the rank to which the weight of its out-edges is largest, the lowest such rank on ties. The result does not depend on the order of visits, on the order of edge insertion or on how the sort orders equal colors, so all ranks compute the same placement.", "quantifier": "for every DAG the corresponding method can produce, every number of ranks", "why_tests_cant": "All DAGs; processing order depends on unstable sorts.", "anchors": ["include/builtins/bhdistro.h", "src/bhdistro.cc", "src/fmm97distro.cc", "src/randomdistro.cc", "src/singlelocdistro.cc"]}
{"id": "C42", "title": "Method DAGs are acyclic", "statement": "No sequence of operator edges produced by the built-in methods leads back to the same DAG node.", "quantifier": "for every pair of trees and every built-in method", "why_tests_cant": "All trees.", "anchors": ["include/dashmm/dag.h", "include/builtins/*_method.h"]}
{"id": "C43", "title": "Centre-of-mass expansion of a union is the combination of the expansions", "statement": "Combining LaplaceCOM expansions of disjoint source sets gives the total charge, centre and quadrupole of the union, in any order and grouping, as long as no partial total charge is zero (an expansion that has received nothing yet may be a starting point). With a zero partial total the dipole is lost or a division by zero occurs, and the centre of such a group is its dipole moment taken as a position, which does not move with the sources (refuted).", "quantifier": "for every partition of every source set, every combination order (exact arithmetic)", "why_tests_cant": "Combination order is schedule dependent.", "anchors": ["include/builtins/laplace_com.h: S_to_M, M_to_M, add_expansion, calc_mtot, calc_xcom, calc_Q"]}
{"id": "C44", "title": "Reduction operators are order independent", "statement": "For non-negative int counts whose total fits, for size_t sums modulo 2^64 and for max, every order and grouping of the contributions, with identities anywhere, gives the column sums or maxima; the reduced return code is kSuccess iff all are. With int contributions of mixed signs a partial sum may overflow although the total fits, depending on the order (refuted).", "quantifier": "for every list of contributions (32/64-bit wrap-around included) and every permutation", "why_tests_cant": "Reduction order is schedule dependent.", "anchors": ["src/reductionops.cc"]}
{"id": "C45", "title": "Trace window queries return the events in the window, minus those at the last stamp", "statement": "Asking a worker for the events in a time window [start,end) returns exactly the recorded events with start <= stamp < end except those at the last stamp of the worker's trace; so the answer is exact if and only if not start <= last stamp < end (the literal claim is refuted).", "quantifier": "for every sorted event list and every window", "why_tests_cant": "All windows; the lost events are at the upper end of the trace.", "anchors": ["trace/readtrace/worker.cc: Worker::range"]}
{"id": "C46", "title": "Uniform cells tile the domain and children tile their parent", "statement": "The boxes of the indices of one level cover the domain, overlap only on faces, the eight child boxes of an index tile its box, the centre reported is the midpoint of the corners.", "quantifier": "for every domain and index (exact arithmetic)", "why_tests_cant": "All real geometries and levels.", "anchors": ["src/domaingeometry.cc: low_from_index, high_from_index, center_from_index, size_from_level"]}
{"id": "C47", "title": "Points delivered by the tree build are the user's points", "statement": "After the trees are built, the multiset of records over all ranks' segments is the multiset of records the user provided, for any number of ranks and any message order; each rank's segment holds exactly the records of the cells assigned to it, and the slice of each cell exactly the records of all ranks lying in that cell's box. Sorting, counting, sending and merging never fail for records inside the domain whose total number fits an int. When S == T every target cell is complete exactly once.", "quantifier": "for every initial distribution, every rank map and every arrival order", "why_tests_cant": "Distributed executions.", "anchors": ["include/dashmm/dualtree.h: create_dual_tree_handler, send_points_handler, recv_points_handler", "include/dashmm/tree.h"]}
{"id": "C48", "title": "Evaluation repeats after a reset", "statement": "If a DAG evaluation has come to its very end (no thread or message left) and the LCOs are reset, the data of every expansion with outputs is gone and a second evaluation delivers the same multiset of (edge, contribution) pairs; the targets accumulate the same values once more. If the reset happens as soon as the end is signalled (which is what the evaluator waits for), this fails: data not yet freed leads to a wrong contribution or a null pointer.", "quantifier": "for every DAG and all pairs of schedules", "why_tests_cant": "Interleavings over two rounds.", "anchors": ["include/dashmm/evaluator.h: reset_DAG", "include/dashmm/expansionlco.h: reset", "include/dashmm/targetlco.h: reset"]}
{"id": "C49", "title": "Segment collation pairs begin and end events correctly", "statement": "Feeding a time ordered stream of properly alternating begin/end events per worker yields exactly one segment per begin/end pair with the right times, and leaves no stale state; a mismatched event (of another locality or worker, or out of turn) is refused and changes nothing. Whatever the calls, no segment joins events of different types, localities or workers.", "quantifier": "for every event stream", "why_tests_cant": "All interleavings of workers' streams.", "anchors": ["trace/readtrace/segment.h: SegmentCollator"]}
{"id": "C50", "title": "Every record lies in the box of every node that holds it", "statement": "If the records of a uniform cell lie in the cell's box (half-open, closed on the upper domain faces), then after refinement every record of a node's segment lies in that node's box, including records on the upper faces of the domain.", "quantifier": "for every domain, cell, record list, threshold and partition behaviour (exact arithmetic)", "why_tests_cant": "All real positions, including those on cell boundaries at every level.", "anchors": ["include/dashmm/node.h: partition_node_handler", "src/domaingeometry.cc: center_from_index"]}
{"id": "C51", "title": "Segment coverage of a window counts the time inside segments", "statement": "For a window holding at least one event of the type, with starts and ends of the type alternating in time order, the covered time computed is the number of time units of the window inside a segment, if every end is strictly earlier than the following start, and the program stops on an assertion otherwise; a window inside a segment without an event of the type is reported as 0 (refuted).", "quantifier": "for every window and event list", "why_tests_cant": "All windows and segment layouts.", "anchors": ["trace/readtrace/trace.cc: range_coverage"]}
{"id": "C52", "title": "Second-order accuracy of the centre-of-mass potential", "statement": "LaplaceCOM::M_to_T is meant to add the second-order expansion of the potential of the sources, V(0) + V''(0)/2, where V(e) is the potential with the sources scaled towards their centre by e. It adds V(0) - V''(0)/2 instead: the quadrupole term has the wrong sign (refuted). It is exact for a single source, and for two equal charges in line with the target it is worse than the monopole alone.", "quantifier": "for every source set with non-zero total and every target away from the centre of charge (exact arithmetic)", "why_tests_cant": "The error is of the size of the truncation error that tests tolerate.", "anchors": ["include/builtins/laplace_com.h: M_to_T, S_to_T, calc_Q"]}
{"id": "C53", "title": "The tree build frees nothing that a task still uses", "statement": "While the trees are built on several ranks, no task uses the local counts, offsets or points of a rank after that rank freed them, a completion gate or dual_tree_complete after its deletion, or a tree after it was destroyed, and no gate is deleted twice or gets an input too many. The exact exception: a rank waits for its send_points_ task to another rank only if it has points for that rank; whenever it has none, there are schedules in which the task reads the freed counts, and schedules in which recv_points_ at the other rank reads a tree already destroyed.", "quantifier": "for every number of ranks, every rank map, all counts and every schedule of the tasks of all ranks", "why_tests_cant": "A race: it needs a rank without points for another rank and a delayed task.", "anchors": ["include/dashmm/dualtree.h: create_dual_tree_handler 1166-1299, send_points_handler, recv_points_handler, destroy", "include/dashmm/tree.h: sendNode, send_node_handler, recv_node_handler, delete_tree_handler"]}
{"id": "C54", "title": "The tree build ends on every rank and cleans up", "statement": "Every schedule of the build's tasks is finite, and none gets stuck before every rank has returned from create_dual_tree. No rank merges its points before every rank has counted its own, no points from elsewhere are merged before the rank has merged its own, and with equal sources and targets no target cell is partitioned before its source cell. A rank returns only after every non-empty cell of both trees holds the points of all ranks, is partitioned and has been sent to all ranks. After the trees are destroyed every completion gate of the uniform cells has been deleted exactly once, except precisely the gates of the empty cells on the ranks that do not own them, which are never deleted.", "quantifier": "for every number of ranks, every rank map, all counts and every schedule", "why_tests_cant": "Deadlocks and leaks depend on the schedule and on which cells are empty.", "anchors": ["include/dashmm/dualtree.h: create_dual_tree_handler 1232-1297, destroy 482-492", "include/dashmm/tree.h: delete_tree_handler 877-916"]}
{"id": "C55", "title": "In double precision every point gets an existing cell", "statement": "With every double operation rounded to nearest, the reduced bounds are exactly the hull of all points, and the domain is, up to (side + B) / 2^49, the cube around the middle of the hull with the longest side of the hull. If the side of the domain is at least 2^L * B / 2^49, where B bounds the absolute values of the coordinates (at most 1e50), and at least 2^-1000, then every point is given one of the 8^L uniform cells, the point lies in the box of its cell up to (side + B) / 2^49 in every direction, and the counts are the numbers of points per cell. Without the condition on the side it is false: two points one unit in the last place apart get a negative cell number and the counter in front of the array is written.", "quantifier": "for all finite coordinates, every distribution over ranks, every order of the reduction and every level up to 10", "why_tests_cant": "The failing inputs are pairs of points a few units in the last place apart; random tests do not produce them, and no set of tests covers all doubles.", "anchors": ["include/dashmm/dualtree.h: set_domain_geometry_handler 518-557, domain_geometry_op_handler 581-591, init_partition 672-680", "include/dashmm/tree.h: assign_points_to_unif_grid 627-650"]}
{"id": "C56", "title": "In double precision points stay near their boxes at every depth", "statement": "With every double operation rounded to nearest, refining a uniform cell leaves every record within (side + B) / 2^48 of the box of each node that holds it, down to level 31; the error does not accumulate with the depth. The corners and the centre the code reports for a box are those of the box up to (side + |corner|) / 2^49, and the centre it reports equals the one refinement compares with.", "quantifier": "for all finite coordinates up to 1e50, all domains of side at least 2^-960 that meet the condition of C55, every threshold and every result of std::partition", "why_tests_cant": "Rounding errors depend on every bit of the coordinates; tests see a vanishing part of them.", "anchors": ["include/dashmm/node.h: partition_node_handler 464-505", "src/domaingeometry.cc: 41-67", "include/dashmm/tree.h: 627-650"]}
{"id": "C57", "title": "The multipole methods use exactly the interaction lists", "statement": "The DAG of FMM has exactly the edges of the adaptive interaction lists, each once: a box not touching the target box whose parent touches its parent gives M to L, a larger leaf touching the parent only gives S to L, a smaller box with a parent touching gives M to T, a touching leaf gives S to T; where touching means the closed boxes meet. FMM97 has the same with the first list sent through intermediate expansions. In FMM a box takes at most 189 M to L, gives at most 189, and gathers at most 8 M to M; in FMM97 a target box takes at most 208 I to I and a source box gives at most 26; all these bounds are reached.", "quantifier": "for all pairs of octrees (any depths, any empty children), every uniform level and both same-sources-and-targets settings", "why_tests_cant": "A missing or doubled interaction changes the result by less than the accuracy of the expansion; tests of accuracy do not see it, and the lists depend on the shape of two adaptive trees.", "anchors": ["include/builtins/fmm_method.h: 53-213", "include/builtins/fmm97_method.h: 53-239"]}
{"id": "C58", "title": "The Legendre table holds the associated Legendre functions", "statement": "legendre_Plm stores at i (i + 1) / 2 + m the associated Legendre function of degree i and order m, as defined by the formula of Rodrigues with the factor (-1)^m, for all m <= i <= n; it writes no entry outside the (n + 1) (n + 2) / 2 it is given and fills all of them. The table of the expansion holds the square root of i! at i for all i < 2 p + 3.", "quantifier": "for all degrees n and p and all x in [-1, 1], over the reals", "why_tests_cant": "Tests compare with a few tabulated values of low degree; an error in the recurrence or in an index at one degree and order shows up only as a small loss of accuracy.", "anchors": ["src/special_function.cc: legendre_Plm 29-48", "include/builtins/special_function.h: midx 31-33", "src/laplace_table.cc: generate_sqf 220-226"]}
{"id": "C59", "title": "Multipole and local expansions approximate the potential to the expected order", "statement": "Evaluating the multipole expansion of sources within a of the centre at a target at distance R > a gives the Coulomb potential up to (total of the absolute charges) / (R - a) * (a / R)^(p + 1). Evaluating the local expansion of sources at least a away at a target at distance r < a gives it up to (total) / (a - r) * (r / a)^(p + 1). Both hold for every scale. Positions within 1e-14 of the centre, or in a direction within 1e-14 of the vertical, are first moved at the same distance by at most 2e-14 max(1, distance); all others are exact. Adding the expansions of two sets of sources gives the expansion of their union.", "quantifier": "for all lists of sources with any charges, all centres, targets, scales other than 0 and degrees p, over the reals", "why_tests_cant": "The error bound ranges over all configurations of sources; tests see random ones, for which the error is far below the bound, so that a wrong coefficient of high degree goes unnoticed.", "anchors": ["include/builtins/laplace.h: S_to_M 161-172, S_to_L 174-185, M_to_T 260-269, L_to_T 271-280, add_expansion 322-337", "src/laplace.cc: lap_s_to_m 68-104, lap_s_to_l 106-143, lap_m_to_t 772-820, lap_l_to_t 869-915"]}
{"id": "C60", "title": "Points at the centre of a box", "statement": "A multipole or local expansion exists exactly if none of the sources lies at the centre of the expansion. A source or a target exactly at the centre makes the code divide zero by zero, so that the coefficients of order above zero, or the potential, become NaN.", "quantifier": "for all centres, lists of sources, scales other than 0 and degrees", "why_tests_cant": "Random test points never lie exactly at a centre; points on a regular grid do.", "anchors": ["src/laplace.cc: 79-85, 115-123, 785-793, 883-891"]}
{"id": "C61", "title": "The tables of the translations are right", "statement": "For 1 to 14 digits the tables that the multipole and local expansions of the Laplace kernel use can be made, without access outside of their arrays; those of the exponential expansions are C67. They hold the square roots of the binomial coefficients up to twice the degree, and for every direction between boxes at most three apart in each coordinate, other than vertical ones, dmat_plus and dmat_minus find the matrices that rotate by the angle to the z axis and back. An error below 1e-9 in the cosine finds the same matrices, unless the cosine is 0. For the offset (4, 0, 1) there is no matrix and M_to_L throws. With 0 digits or more than 14 the constructor leaves its arrays.", "quantifier": "for all numbers of digits, degrees, offsets and entries, over the reals", "why_tests_cant": "The matrices are long recurrences whose entries nobody checks one by one, and a missing key shows only when two boxes happen to lie in that direction.", "anchors": ["src/laplace_table.cc: 27-37, generate_sqbinom 228-258, generate_wigner_dmatrix 260-294, generate_dmatrix_of_beta 296-401", "include/builtins/builtin_table.h: 29-41"]}
{"id": "C62", "title": "Moving multipole expansions up the tree loses nothing", "statement": "M_to_M of the expansion of a child is the expansion S_to_M makes from the same sources for the parent, exactly. In the upward pass nothing fails except for a source at the centre of its box, and an expansion made by any sequence of S_to_M, M_to_M and additions, evaluated by M_to_T outside of the sphere of radius a around its box, at distance R from its centre, is off by at most (total of the absolute charges) / (R - a) * (a / R)^(p + 1).", "quantifier": "for all domains, boxes, children, charges, degrees from 1 and all sequences of operations, over the reals", "why_tests_cant": "An error in one coefficient of high degree in one of eight rotations is far below the tolerance of an accuracy test.", "anchors": ["include/builtins/laplace.h: M_to_M 187-193", "src/laplace.cc: lap_rotate_sph_z 23-42, lap_rotate_sph_y 44-66, lap_m_to_m 145-209"]}
{"id": "C63", "title": "Moving local expansions down the tree changes no value", "statement": "L_to_L of any local expansion gives an expansion about the centre of the child that has, at every point, exactly the same value.", "quantifier": "for all local expansions, domains, boxes, children, points and degrees from 1, over the reals", "why_tests_cant": "The value is a sum of many terms; an error in one of them is far below the tolerance of an accuracy test.", "anchors": ["include/builtins/laplace.h: L_to_L 252-258", "src/laplace.cc: lap_l_to_l 211-275"]}
{"id": "C64", "title": "Local expansions approximate the potential to the expected order", "statement": "M_to_L from boxes at most three apart in each coordinate is off by at most (total of the absolute charges) / (R - 2 a) * (2 a / R)^(p + 1), for sources and target within a of centres R > 2 a apart. A local expansion made by any sequence of S_to_L from at least 3/2 sides away, M_to_L from boxes of the level that do not touch, L_to_L and additions, evaluated in the sphere around its box of side h, is off by at most (total) / h * (sqrt 3 / 2)^(p + 1) / (2 - sqrt 3), however many operations led to it; no operation fails except for a source at the centre of the box.", "quantifier": "for all domains, boxes, sources, targets, degrees from 1 and all sequences of operations, over the reals", "why_tests_cant": "Whether errors accumulate along the passes is a statement about all trees and all depths.", "anchors": ["include/builtins/laplace.h: M_to_L 195-250, M_to_L_zp 375-392, M_to_L_zm 394-411", "include/builtins/laplace_table.h: scale 43"]}
{"id": "C65", "title": "An FMM evaluation delivers the potential to the expected accuracy", "statement": "With the Laplace expansion of order p, the FMM builds a DAG in which every target belongs to a target box the method stops at. In every evaluation of it, on any number of ranks, with the nodes placed in any way and in any schedule, once all ranks have been told that it is over, the value of every target has grown by the sum of charge / distance over all charges not at its own place, up to an error of at most (total of the absolute charges) / h * (sqrt 3 / 2)^(p + 1) / (2 - sqrt 3), where h is the side of the smallest boxes.", "quantifier": "for all source and target trees with records in their boxes, domains, orders from 1, numbers of ranks, placements and schedules, over the reals", "why_tests_cant": "The claim composes tree, lists, DAG, evaluation and every kernel operation; a test samples a few distributions and schedules and compares with a tolerance.", "anchors": ["include/dashmm/evaluator.h: 425-513", "include/builtins/laplace.h: 161-297", "include/builtins/fmm_method.h", "include/dashmm/expansionlco.h: 227-338, 545-629", "include/dashmm/targetlco.h: 120-222"]}
{"id": "C66", "title": "Direct evaluation is exact, Barnes-Hut as good as its acceptance test", "statement": "With the Laplace expansion, once an evaluation of the DAG of the direct method is over, every target has gained exactly the sum of charge / distance over all charges not at its own place. With Barnes-Hut, if every accepted source box of side h is seen from the targets at a distance of at least h / theta from its centre, theta < 2 / sqrt 3, the error is at most (total of the absolute charges) / (side of the smallest source boxes) * (sqrt 3 / 2 theta)^(p + 1) / (1 / theta - sqrt 3 / 2).", "quantifier": "for all source and target trees with records in their boxes, domains, orders from 1, acceptance tests, numbers of ranks, placements and schedules, over the reals", "why_tests_cant": "As C65; and a test with one angle cannot tell which guarantee of the acceptance test the accuracy needs.", "anchors": ["include/builtins/direct_method.h", "include/builtins/bh_method.h", "include/builtins/laplace.h: 161-297"]}
{"id": "C67", "title": "The tables of the exponential expansions are right for 3, 6 and 9 digits", "statement": "For 3, 6 and 9 digits the constructor of the Laplace table fills the tables of the exponential expansions without leaving them, and every entry the expansions read is exp(-lambda z), exp(i lambda x cos alpha), exp(i lambda y sin alpha), exp(i m alpha) or lambda^n / sqrt((n-m)! (n+m)!) of its wave length, angle, distance and degree. For any other number of digits the number of wave lengths and the arrays are never assigned, and using them is undefined. For 6 digits the switch runs on into the case of 9 digits: the quadrature of 9 digits is used and the six arrays made for 6 digits are never freed.", "quantifier": "for all numbers of digits and all entries, over the reals", "why_tests_cant": "A test tries one accuracy and cannot see a leak or that another quadrature than the intended is used; reading unassigned members may happen to work.", "anchors": ["src/laplace_table.cc: 38-218, 402-478"]}
{"id": "C68", "title": "M_to_I turns a multipole expansion into the waves of its charges", "statement": "Whatever charges a multipole expansion was made of in an upward pass, M_to_I makes six views of it. The view of a direction holds for each wave length lambda_k and each stored angle the weight w_k / m_k times the sum over the charges of charge times the wave exp(-lambda (z - i (x cos alpha + y sin alpha))) from the charge to the centre of its box, seen along that direction, truncated to the degree of the expansion and to the frequencies f_k kept.", "quantifier": "for all domains, boxes, lists of charges, upward passes, directions, wave lengths and angles, over the reals", "why_tests_cant": "A wrong sign, phase or missing harmonic is hidden in the error of the quadrature for most configurations.", "anchors": ["src/laplace.cc: 277-383", "include/builtins/laplace.h: 299-304"]}
{"id": "C69", "title": "e_to_e moves waves exactly", "statement": "For offsets of at most three boxes in the two coordinates across and from 0 to 3 along, e_to_e adds to the target, for each wave, the source's coefficient times exp of the wave over that offset, and touches nothing outside of its arrays. Two moves after each other are the move by the sum.", "quantifier": "for all coefficients, offsets in the range and numbers of digits with tables, over the reals", "why_tests_cant": "An index error in the packed tables shows up only for some offsets and wave lengths.", "anchors": ["src/laplace.cc: 639-661"]}
{"id": "C70", "title": "e_to_l turns waves into a local expansion", "statement": "For each of the six directions, e_to_l adds to a local expansion exactly the function whose value at a target is the sum over all wave lengths and stored angles of twice the real part of coefficient times the wave from the centre of the box to the target, truncated to the degree of the expansion and the frequencies kept. The result is again an expansion with real coefficients of order 0.", "quantifier": "for all waves, expansions, directions, boxes and targets not at the centre of their box, over the reals", "why_tests_cant": "As C68; the odd degrees, the rotations and the conjugate half of the angles can cancel for symmetric inputs.", "anchors": ["src/laplace.cc: 663-772"]}
{"id": "C71", "title": "From multipole to local expansions through merged waves", "statement": "Let the intermediate expansion of a target box t collect, in any order, the waves of any of the children of t and its neighbours (M_to_I, I_to_I). None of these steps fails. I_to_L then gives each child u of t a local expansion that has, for every charge of every box that does not touch u, exactly the contribution charge / side times the quadrature of the wave from the charge to the target, in a direction in which the two boxes are two or three boxes apart; the charges of the boxes that touch u contribute nothing. If the quadrature approximates side / distance up to eps for these waves, the result is the potential of these charges up to eps * (total of the absolute charges) / side.", "quantifier": "for all domains, boxes, sets and orders of contributing source boxes, charges and targets not at the centre of their box, over the reals", "why_tests_cant": "There are 189 relative positions and 28 merged views; a test compares sums up to a tolerance and cannot tell a wave moved wrongly from the error of the quadrature.", "anchors": ["src/laplace.cc: 277-661", "include/builtins/laplace.h: 299-340", "src/merge_shift.cc"]}
{"id": "C72", "title": "An FMM97 evaluation delivers the potential to the expected accuracy", "statement": "With the Laplace expansion, the FMM97 method (which exchanges exponential waves instead of multipole expansions) builds a DAG in which every target belongs to a target box the method stops at. If the quadrature of the table turns the wave between two points, in boxes two or three boxes apart, into the inverse of their distance up to eps, then in every evaluation of the DAG, on any number of ranks, with the nodes placed in any way and in any schedule, once all ranks have been told that it is over, the value of every target has grown by the sum of charge / distance over all charges not at its own place, up to an error of at most (total of the absolute charges) / h * max (eps, (sqrt 3 / 3)^(p + 1) * 2 / (3 - sqrt 3)), where h is the side of the smallest boxes and p the order of the expansions. Such an eps exists for every table.", "quantifier": "for all source and target trees with records in their boxes, domains, tables, numbers of ranks, placements and schedules, over the reals", "why_tests_cant": "The claim composes tree, lists, DAG, evaluation, merged views and every kernel operation; a test samples a few distributions and schedules and compares with a tolerance that hides missing or doubled contributions.", "anchors": ["include/builtins/fmm97_method.h", "include/builtins/laplace.h: 100-110, 260-340", "src/laplace.cc: 277-772", "include/dashmm/expansionlco.h: 227-338, 545-687", "include/dashmm/evaluator.h: 425-513"]}
{"id": "C73", "title": "The trees built by all ranks together are the trees of all the records", "statement": "Take the branches that the ranks have built below their uniform cells, over the arrays into which local and received records were merged, and put them below the pruned top. The result is the tree of the records of all ranks: it has each box of the first L levels that has a record and, below, each box that has a record and whose ancestors from level L on all have more than the refinement threshold; each box below the uniform level has exactly the records of all ranks that lie in it. The boxes that pruning leaves of the top are those of this tree. With S == T the target tree has the arrays and branches of the source tree. If no more records than the threshold share a position, every rank's build ends.", "quantifier": "for all records, domains, levels 1 to 9, thresholds, numbers of ranks, distributions, cell owners, orders of the reductions and of the arrivals, and partition functions that keep their contract, over exact coordinates", "why_tests_cant": "The claim composes sorting, counting, exchange, merging and refinement; a test sees a few distributions on few ranks, and a lost, doubled or misplaced record shows up there only as a small error of the potential.", "anchors": ["include/dashmm/dualtree.h: 789-839, 1166-1299", "include/dashmm/tree.h: 214-410, 526-609", "include/dashmm/node.h: 443-536"]}
{"id": "C74", "title": "A whole evaluation delivers to every target the potential of all the users' charges", "statement": "Let the users' sources and targets be spread over the ranks in any way. The domain is reduced from all ranks' bounds, the records are counted, exchanged, merged and refined into the trees, and the DAG made by the method over these trees is evaluated. Then DAG construction succeeds, the target boxes at which the DAG ends hold each target of the users exactly once, and when all ranks have been told that the evaluation is over, each has gained the potential of all the users' charges except those at its own position: exactly with direct summation, and with Barnes-Hut, FMM and FMM97 up to the error of one expansion of all the charges in a box of the smallest size (and that of the quadrature). The trees get built if no more records than the threshold share a position.", "quantifier": "for all records not all at one position with coordinates within the initial bounds, charges, levels 1 to 9, thresholds, numbers of ranks, distributions of records and of DAG nodes, orders of reductions, arrivals and tasks, orders p of the expansions, over exact arithmetic; for the methods with expansions, no record may lie within 1e-14 of the centre of a box", "why_tests_cant": "It is the library's contract as a whole; a test compares a few particle sets with direct summation on the few schedules that happen, within a tolerance that hides missing far pairs.", "anchors": ["include/dashmm/evaluator.h: 139-178, 301-345", "include/dashmm/dualtree.h: 486-557, 789-839, 1166-1299", "include/builtins/fmm_method.h", "include/builtins/fmm97_method.h", "include/builtins/bh_method.h", "include/builtins/direct_method.h", "include/builtins/laplace.h"]}
{"id": "C75", "title": "The acceleration expansion holds the moments of its sources and yields their field to second order", "statement": "The expansion LaplaceCOMAcc computes from a group of sources, or combines from any grouping and order of them, holds their total charge, centre of charge and quadrupole, as long as no group on the way has total zero without being empty; with positive charges this always holds. What M_to_T adds to a target's acceleration is the field of the sources expanded to second order in their distances to the centre, and is exact for one source. What S_to_T adds is minus the gradient of the potential of the sources that are not at the target. M_to_T is minus the gradient of the potential LaplaceCOM would add with the sign of its quadrupole turned; as the code is, the two classes disagree (refuted part). Where a total is zero on the way, the dipole is lost and the result depends on the order (refuted part).", "quantifier": "for all lists of sources, all groupings and orders, all target positions, over real arithmetic", "why_tests_cant": "A test compares against direct summation within a loose tolerance and on sources of one sign; a wrong factor in the quadrupole's field hides in it.", "anchors": ["include/builtins/laplace_com_acc.h: 37-86, 160-181, 191-264, 278-327, 378-430"]}
{"id": "C76", "title": "The Bessel arrays of the Yukawa kernel hold the spherical Bessel functions", "statement": "bessel_kn_scaled leaves (PI/2) scale^n k_n(x) in B[n] for every n up to nb, writes nothing outside B[0..nb] and passes its assertion; bessel_in_scaled leaves i_n(x) / scale^n there, to the relative accuracy of bessel_In (1e-17 or worse) where it calls that, to 1e-17 where it uses its Taylor series, and up to numbers below 2e-300 that it replaces by zero. The table of the Yukawa kernel holds (2n+1)(n-m)!/(n+m)! for every degree and order.", "quantifier": "for all nb from 1 (k) or 0 (i) to 19, arguments between 1e-250 and 1e8 (k) or up to 100 (i), scales up to the argument (k) or 1 (i), arrays that are long enough, degrees of the table, over real arithmetic", "why_tests_cant": "A test compares a few arguments with tabulated values; the branches for tiny arguments and for overflow are hardly ever taken.", "anchors": ["src/special_function.cc: 1298-1365", "src/yukawa_table.cc: 306-324"]}
{"id": "C77", "title": "Multipole and local expansions of the Yukawa kernel yield the screened potential", "statement": "The potential M_to_T computes at a target outside a ball that holds the sources, from the expansion S_to_M made of them, and the one L_to_T computes inside a ball without sources from S_to_L, differ from the screened potential of the sources by at most the truncation error of degree p, the error of the Bessel functions and 1e-260, in the units of the direct sum S_to_T. The scale the code assigns to a level fits boxes of that level. Expansions of two sets of sources add to that of both. S_to_T adds the screened potential of all sources that are not at the target, and nothing for those that are.", "quantifier": "for all lists of sources and positions at which C76 applies, screening parameters, domain sizes, levels, degrees 1 to 18, and any bessel_In of relative accuracy eta, over real arithmetic", "why_tests_cant": "A test checks random particles to three or six digits; a wrong factor in a high order or a wrong scale on deep levels stays below that.", "anchors": ["src/yukawa.cc: 68-144, 227-275, 365-413", "include/builtins/yukawa.h: 100-126, 166-190, 214-253", "src/yukawa_table.cc: 29-40"]}
{"id": "C78", "title": "Where the expansions of the Yukawa kernel fail", "statement": "Outside the range of C77 the expansions of the Yukawa kernel do not work: a source or target at the centre of a box divides zero by zero; evaluating a multipole expansion, or expanding a source, at 1e8 screening lengths or more fails an assertion; sources more than 100 screening lengths from the centre of their box are left out of the multipole expansion; an accuracy other than 3 or 6 digits yields degree 0, with which S_to_L writes out of bounds, and 15 digits or more read behind the table.", "quantifier": "for all lists of sources, positions, screening parameters and numbers of digits, over real arithmetic", "why_tests_cant": "Tests use 3 or 6 digits and lambda near 1; these inputs are never tried.", "anchors": ["src/special_function.cc: 1314-1317, 1334-1365", "src/yukawa_table.cc: 30-38", "src/yukawa.cc: 68-144"]}
{"id": "C79", "title": "What Barnes-Hut delivers with the acceptance test it has", "statement": "If no target leaf is more than 2^k times as large as the smallest source box and 1/theta - sqrt(3) 2^k is more than sqrt(3)/2, every accepted source box is seen from the targets under an angle of at most tau, where 1/tau = 1/theta - sqrt(3) 2^k, and each target gains the potential of all charges up to the error of truncating expansions at the angle tau; this holds for whole evaluations from the users' records too. Without the condition on the leaves there is no bound: at theta = 1/4, for every order of the expansions, a charge in a small box next to a large target leaf is accepted, all but an arbitrarily small part of it is lost, and the error exceeds any number.", "quantifier": "for all trees, charges, orders, opening angles, numbers of ranks and schedules, over real arithmetic", "why_tests_cant": "The tests compare Barnes-Hut with theta = 0.6 on two random distributions; a large leaf next to a small box with a pair across the face between them does not occur.", "anchors": ["include/builtins/bh_method.h: 84-186", "src/domaingeometry.cc: 40-55", "src/laplace.cc"]}
{"id": "C80", "title": "Spherical Bessel functions of the Helmholtz kernel", "statement": "The array of scaled functions j_n(x)/s^n is right up to the accuracy of the underlying half-integer Bessel routine and up to 2e-300, for every 0 < x <= 100, order up to 18 and scale up to 1; the array of s^n (j_n(x) + i y_n(x)) is right for 1e-4 <= x <= 100. Below 1e-4 the second array is wrong: what it holds for y_1 is at most 2 x times the right value.", "quantifier": "for all arguments, orders, scales and array contents, and all half-integer Bessel routines of the stated accuracy, over real arithmetic", "why_tests_cant": "A test compares some values of x; the claim is about all x and the accuracy of every entry, and the branch below 1e-4 is not exercised by the tests.", "anchors": ["src/special_function.cc: bessel_jn_scaled, bessel_hn_scaled"]}
{"id": "C81", "title": "Multipole and local expansions of the Helmholtz kernel", "statement": "A multipole expansion built from any sources within a of a box centre, evaluated at a target farther away, gives real and imaginary part of sum q exp(i x)/(i x), x = omega R, up to the total charge times an explicit bound (truncation, accuracy of the Bessel functions, numbers below 1e-300); a local expansion built from sources farther than the target likewise; the scale of a level is at most 1 and at most omega times the side of a box and determines the level; direct evaluation is exact and leaves out a source at the target; expansions of two sets of sources add up to the expansion of both. Arguments omega R up to 100 and, for the farther particle, at least 1e-4; for local expansions omega times the domain size above 1/2.", "quantifier": "for all lists of sources, positions, wave numbers, domain sizes, levels and both supported accuracies, over real arithmetic", "why_tests_cant": "Tests compare sums at random points with a tolerance; they cannot bound the error for all configurations.", "anchors": ["include/builtins/helmholtz.h: S_to_M, S_to_L, M_to_T, L_to_T, S_to_T, add_expansion", "src/helmholtz_table.cc: 27-60, 640-658", "include/builtins/helmholtz_table.h: scale, level"]}
{"id": "C82", "title": "Where the expansions of the Helmholtz kernel fail", "statement": "Outside the range of C81 the expansions of the Helmholtz kernel do not work: a source or target at the centre of a box divides zero by zero; a target within 1e-4/omega of a box centre gets at most 3/5 of the imaginary part of the field of a charge halfway to it; if omega times the domain size is at most 1/2, building any local expansion from sources reads in front of a table; a box below level 21 reads behind it; an accuracy other than 3 or 6 digits yields degree 0, and 15 digits or more read behind the table of degrees.", "quantifier": "for all lists of sources, positions, wave numbers, domain sizes, levels and numbers of digits, over real arithmetic", "why_tests_cant": "Tests use 3 or 6 digits and wave numbers near 1 on domains of size near 1; these inputs are never tried.", "anchors": ["include/builtins/helmholtz.h: 53-67, 154-264, 373-477", "include/builtins/helmholtz_table.h: level", "src/helmholtz_table.cc: 23-60", "src/special_function.cc: 1367-1406"]}
{"id": "C83", "title": "Accuracy of the three-digit quadrature", "statement": "For every displacement that the interaction lists allow between points of two boxes of side one (1 <= z <= 4, |x| <= 4, |y| <= 4), the weighted sum of waves in the tables for three digits is within 1/100 of 1/sqrt(x^2 + y^2 + z^2). It is not within 1/200 everywhere: at (0, 27/8, 1) it is more than 1/200 too large.", "quantifier": "for all real displacements in the box, over real arithmetic", "why_tests_cant": "Tests sample displacements; the error oscillates and its maximum lies between samples.", "anchors": ["src/laplace_table.cc: 40-65, generate_xs, generate_ys, generate_zs", "include/builtins/laplace_table.h: weight, m, sm"]}
{"id": "C84", "title": "Error of FMM97 at three digits", "statement": "With the tables for three digits an FMM97 evaluation of the Laplace kernel adds to each target the potential of all charges other than those at its own place, up to a twentieth of the sum of |q| divided by the side of the smallest boxes; no assumption about the quadrature is left. This includes the truncation of the waves at degree 9 and at the tabulated frequencies, and holds for a whole run from the users' records on any number of ranks.", "quantifier": "for all source and target records, domains, thresholds, rank counts and message orders, over real arithmetic", "why_tests_cant": "Tests compare a few random distributions with direct summation; they do not bound the worst case.", "anchors": ["src/laplace_table.cc: 40-65", "include/builtins/laplace.h: M_to_I, I_to_I, I_to_L", "include/builtins/fmm97_method.h"]}
{"id": "C85", "title": "Trace files are read as they were written", "statement": "The name directory/locality.worker.x.y.CLASS_EVENT.ext of a trace file gives its locality, its worker and the kind of its events, and the contents (magic, version, header of at most 65535 bytes, stamps of eight bytes, lowest first) give back exactly the stamps written; class and event name select a kind exactly if they are those of that kind, and the numbers of the kinds of work differ and are not 0. A file cut off within a stamp or without the magic is refused. Names that do not have this form are not always refused, and a header said to be longer than the file yields no events instead of an error (both refuted).", "quantifier": "for all directories, numbers below 2^31, kinds of events, headers and stamps", "why_tests_cant": "All names and contents; tests would try a few files.", "anchors": ["trace/readtrace/tracefile.cc: split, split_once, File::interpret_filename, File::check_and_skip_header", "trace/readtrace/dashmmevents.cc", "trace/readtrace/networkevents.cc", "trace/readtrace/segmentids.h"]}
{"id": "C86", "title": "A trace holds the events of its files", "statement": "After loading files that hold at least one event for each of their workers, every worker of the trace has exactly the events of its files in order of time, counted from the zero of its locality; number of events, first and last time are right, and no file can be added afterwards. The zero is the stamp of the reference event that the first file of the first such worker begins with (0 without one). Without reference events the order of the files does not matter. A worker without events is an access outside of an array; a reference event whose file is not the first of its worker is ignored; events before the zero wrap around to the end of time; segments that touch can come out in an order that collating refuses (all refuted).", "quantifier": "for all lists of files and every order std::sort may give equal times", "why_tests_cant": "All sets of files and orders of the arguments.", "anchors": ["trace/readtrace/worker.cc", "trace/readtrace/locality.cc", "trace/readtrace/trace.cc", "trace/readtrace/main.cc: 58-69"]}
{"id": "C87", "title": "bessel_In computes the modified Bessel functions of half-integral order to fourteen digits", "statement": "bessel_In(nb, 0.5, x, 1, B) returns nb, and sqrt(PI/(2x)) B[n] differs from the modified spherical Bessel function i_n(x) by at most 1e-14 of it for every n below nb; Gamma(1.5), which normalizes it, is sqrt(PI)/2 to 1e-18. So the statements of C76 and C77 on bessel_in_scaled and on the multipole and local expansions of the Yukawa kernel hold with this accuracy and no assumption. For nb = 0, x < 0 and x > 709 bessel_In does not return nb.", "quantifier": "for all nb from 1 to 20 and x from 1e-4 to 100, all that the Yukawa kernel asks for, over real arithmetic", "why_tests_cant": "A test compares a few orders and arguments with a library; where the downward recursion starts depends on both, and a start that is too low costs digits only for some of them.", "anchors": ["src/special_function.cc: 116-240, 960-1264, 1298-1332"]}
{"id": "C88", "title": "Direct and Barnes-Hut with LaplaceCOM deliver the potentials", "statement": "With LaplaceCOM, Direct writes to every target exactly the potential of the sources the method says it interacts with. Barnes-Hut, with positive charges, writes it up to 3 m/(s (1/tau - sqrt(3)/2)^3), m the total charge, s the side of the smallest boxes and tau the angle its own acceptance test enforces. Both hold from the users' records, on any ranks and in any order of execution: no box with a zero total or an expansion added twice comes up. The error is of second order only, because the quadrupole enters with the wrong sign (C52); charges of both signs are left out because a zero total of a box is divided by (C43).", "quantifier": "for all sets of records, trees, numbers of ranks, schedules and orders of addition, over real arithmetic", "why_tests_cant": "A test sees a few distributions of charges and one schedule; the sums of moments are combined in an order that depends on the execution.", "anchors": ["include/builtins/laplace_com.h: 160-298", "include/builtins/bh_method.h", "include/builtins/direct_method.h", "include/dashmm/expansionlco.h", "include/dashmm/targetlco.h"]}
{"id": "C89", "title": "Direct delivers Yukawa and Helmholtz potentials and accelerations", "statement": "With the Direct method, every target gains exactly the Yukawa potential, the Helmholtz field or (LaplaceCOMAcc) the acceleration of all sources but those at its own place, added to what it held. This holds from the users' records, on any ranks and in any order of execution.", "quantifier": "for all sets of records, charges of any sign, positive screening parameters and wave numbers, trees, numbers of ranks and schedules, over real arithmetic", "why_tests_cant": "A test compares a few targets with a second implementation of the same loop; it cannot show that no pair is missed, repeated or added to the wrong target under another schedule.", "anchors": ["include/builtins/yukawa.h: 236-253", "include/builtins/helmholtz.h: 480-497", "include/builtins/laplace_com_acc.h: 241-264", "include/builtins/direct_method.h", "include/dashmm/targetlco.h"]}
{"id": "C90", "title": "Barnes-Hut with LaplaceCOMAcc delivers the accelerations", "statement": "With LaplaceCOMAcc and positive charges, Barnes-Hut writes to every target the acceleration of all sources up to a vector of length at most 3 sqrt(3) m/(s^2 (1/tau - sqrt(3)/2)^5), m the total charge, s the side of the smallest boxes and tau the angle its own acceptance test enforces. The error is of third order in the angle: the quadrupole of this class has the right sign, unlike that of LaplaceCOM (C52, C88). This holds from the users' records, on any ranks and in any order of execution.", "quantifier": "for all sets of records with positive charges, trees, numbers of ranks, schedules and orders of addition, over real arithmetic", "why_tests_cant": "A test sees a few distributions of charges and one schedule; an error bound for all positions of charges and targets is out of its reach.", "anchors": ["include/builtins/laplace_com_acc.h: 160-327", "include/builtins/bh_method.h", "include/dashmm/expansionlco.h", "include/dashmm/targetlco.h"]}
{"id": "C91", "title": "The database of a trace", "statement": "Let a trace be read from files, with no negative locality and at most 2^31 events. The database then numbers the events 0, 1, 2, ..., those of one worker in a row. If the events of every worker start and end their work in turn, writing succeeds: ids are unique in every table; every locality and worker has exactly one row; every event has exactly one row, with its locality, its worker, its time as a signed number relative to the zero of the locality, and references to rows that name its type, class and kind of work (each name with one NUL behind it); every piece of work that ends has exactly one row, which joins the start and the end of that worker and kind, with their times. If some event is out of turn, the writer throws at the first of them, and the file keeps the events before it in full batches of 10000 and no segments. A negative locality gets events but no row, and from 2^31 events on the ids that segments refer to wrap.", "quantifier": "for all trace files, orders of files, sorts, localities and workers, and numbers of events up to 2^31", "why_tests_cant": "A test writes one trace; that ids never collide, that every reference resolves and that a refused event loses exactly the open batch has to hold for all traces and batch boundaries.", "anchors": ["trace/readtrace/sqlite3out.cc", "trace/readtrace/segment.h", "trace/readtrace/counter.h", "trace/readtrace/segmentids.cc", "trace/readtrace/worker.h"]}
{"id": "C92", "title": "The picture of a trace and the table of utilisation", "statement": "Let the workers of a trace do one thing after another, with times below 2^63, and let a picture x wide and about y high be drawn of a window of at most 2^49 ns with padding p, where the paddings fit into y. The picture is then x wide and exactly as high as its n bars of equal height with p rows between them, which is y up to n/2 rows. The x columns share out the window without gap or overlap, each edge within 1 ns of its place. The bars do not overlap and stand in the order of localities and workers from the top. In the column of a window in which a worker begins or ends something of the type asked for, its bar is red, and white is mixed in, up to 2^-52, by the share of the window in which the events found, which are those before the last time of the worker, say it is not busy. In all other columns it is white, also inside a longer piece of work. For windows before the last time, the events found give the same share as all events. With more than twice as many workers as rows beside the paddings the bars have height zero and their squares end below where they begin, and a trace without workers makes the division fail. The table of utilisation writes outside of its rows for every positive number of samples.", "quantifier": "for all traces, types, windows, widths, heights and paddings in the stated range", "why_tests_cant": "A test looks at one picture; that columns share out the window and shades follow the busy time under rounding has to hold for all windows, widths and traces.", "anchors": ["trace/readtrace/plotter.cc", "trace/readtrace/utilization.cc", "trace/readtrace/trace.cc", "trace/readtrace/locality.cc", "trace/readtrace/worker.cc"]}
{"id": "C93", "title": "Time steps of the stepping demo", "statement": "The evaluations of the demo add to the accelerations and nothing sets them back, so after n steps every particle has the acceleration it started with plus all the fields of the steps before: the field of step j moves it with weight n - j in velocity and (n - j)^2/2 in position, in exact arithmetic and for any ranks, order of records and error of the evaluation. It therefore does not move as the fields say: any particle that is pulled at the start has the wrong velocity from the second step on. Masses and numbers stay with their particles, and momentum is kept up to dt n (n + 1)/2 times the total mass times the error of an evaluation, exactly with exact fields. The demo starts with numbers 0, 1, ..., masses between 1 and 2, no velocity, distances from the origin equal to what rand returns (not uniform in the ball as its comment says), and a time step with dt^2 m = 1/40000 for total mass m.", "quantifier": "for all numbers of particles and steps, initial states, time steps, distributions over ranks, schedules and errors of the evaluation", "why_tests_cant": "The accumulation shows only from the second step on and looks like a physical effect; no test compares more than one step, and the cancellation of forces must hold for all configurations.", "anchors": ["demo/stepping/stepping.cc", "include/builtins/laplace_com_acc.h", "include/dashmm/targetlco.h", "include/dashmm/arrayforeachaction.h"]}
{"id": "C94", "title": "Table of the edges between localities", "statement": "DAG::printedges(n) writes, in order, one line for every operation and every two of n localities, with the number of edges of that operation from the one to the other. For the DAGs of Direct, Barnes-Hut, FMM and FMM97 every edge is counted exactly once although the target leaves are not read, whatever the order of the lists of nodes and of the edges of a node, if all nodes have localities 0 to n - 1 and there are fewer than 2^31 edges. If an end of an edge has no locality yet (-1) or one that is not below n, the count is stored outside the table. A negative n is refused by an exception.", "quantifier": "for all source and target trees, methods, localities, numbers of localities, orders of nodes and of edges", "why_tests_cant": "The store outside the table needs a distribution policy that leaves a node without a locality, and a missing count looks like a plausible number.", "anchors": ["src/dag.cc", "include/dashmm/dag.h", "include/dashmm/dualtree.h"]}
{"id": "C95", "title": "Parts of the ranks: pins, copies, moves", "statement": "In every interleaving of threads that make, move and end RankLocal objects and make, allocate and destroy RankWise objects, a cell is pinned exactly once for each live object on it and every registered copy belongs to exactly one live object, so nothing stays pinned or registered when all objects have ended, and an object can end unless its cell was freed under it. here() always gives the cell of the calling rank itself; there(rank) for another rank gives a copy of what the cell was, which nobody else changes and through which the other rank is never written; without memory for it the object is not valid and using it dereferences null. A move hands everything over. The move assignment has no return statement and forgets what its target held. Allocating twice or destroying nothing is caught by an assertion, but other RankWise objects of the same address stay valid after it is freed. DualTree::destroy frees the dual tree while its own RankLocal pins it and unpins the freed address at its end.", "quantifier": "for all interleavings of operations, numbers of ranks, types and values of the cells, and outcomes of the allocation of copies", "why_tests_cant": "A pin too many or too few shows only when memory is moved or freed much later, and the failing allocation and the unpinning after the free do no visible harm in a test.", "anchors": ["include/dashmm/rankwise.h", "include/dashmm/dualtree.h", "include/dashmm/evaluator.h"]}
{"id": "C96", "title": "Kernel tables over several DAGs", "statement": "After any sequence of calls the global table of a kernel is the one for the digits, the domain size and the kernel parameter of the last create_DAG, the same as if it had been built afresh. So every call of evaluate() works with the table for its own arguments, whatever was called before. execute_DAG does not look at the arguments of its DAG: it uses the table of the last DAG created, while the LCOs keep the scale of their own. A Laplace leaf executed under the table of a DAG on a domain of another size gives the potential of sources moved away from the centre of their box by the quotient of the sizes, with the number of terms of the other DAG: a wrong result without any error. Laplace DAGs can be created for 3, 6 and 9 digits only; for Yukawa and Helmholtz every number of digits but 3 and 6 gives expansions of a single term, and an empty list of parameters is read out of bounds.", "quantifier": "for all sequences of create_DAG, execute_DAG and evaluate, digits, sizes, parameters, sources and targets", "why_tests_cant": "The tests evaluate once per process; a table left over from another call shows only in particular orders of calls and then as a plausible number.", "anchors": ["src/laplace_table.cc", "src/yukawa_table.cc", "src/helmholtz_table.cc", "include/builtins/laplace_table.h", "include/dashmm/evaluator.h", "include/dashmm/expansionlco.h"]}
{"id": "C97", "title": "Tools that test the accuracy", "statement": "Combining two files of test points adds the values of the one kernel of the other file to the targets and the header and changes nothing else, if the counts and the indices agree and the kernel is new; otherwise it throws. The positions, the sources and the kernel parameters of the other file are not looked at, and of a file with several kernels only the first is taken, so a combined file can hold values for other points or another parameter than it says. The program combine never opens its second file, so three files for three kernels give a file with two, and it prints that it succeeded and returns 0 also when nothing was written. The program collect prints the relative error in the mean square, zero only for exact results, and the largest relative error, which bounds it for real values but does not see imaginary parts for Laplace and Yukawa. It evaluates the kernel asked for with the parameter of the file, but accepts numbers of digits for which there is no table and names of kernels that do not exist, which it compares without evaluating anything, and of several ranks only rank 0 gets to the collective calls.", "quantifier": "for all files, command lines, numbers of ranks and results", "why_tests_cant": "These programs are the tests: what they fail to notice, no run of them shows.", "anchors": ["test/combinepoints/combiner.cc", "test/combinepoints/combine.cc", "test/makepoints/makepoints.cc", "test/collect/collect.cc", "test/common/common.h"]}
{"id": "C98", "title": "Basic demonstration program", "statement": "The demonstration program gives every rank its share of the points, none lost and shares differing by at most one, and all ranks make the same collective calls. For the three kernels it evaluates what was asked for and checks it against the direct sum of the same kernel and parameter at up to 400 targets from different places of the sorted list. The error it prints is the relative error in the mean square of the tested targets, and the largest of their errors, whatever order the evaluations and the sort leave, if the indices of the targets are distinct, which is so exactly when the number of targets is a multiple of the number of ranks or smaller than it. Otherwise targets share indices, of which the last is looked up, and exact results can be reported as wrong. Sources lie where their distribution says, with charges between 1 and 2 in magnitude, without negative ones for Barnes-Hut; the Plummer charges add up to 100 on every rank and so to 100 times the number of ranks with sources. Every option sets its own value and the last one counts. A command line is accepted exactly if the counts are positive, the method and the distributions are known ones, Yukawa and Helmholtz use the newest method, and the newest method with one of the three kernels has three or six digits; an unknown kernel is accepted and compares zeros without any evaluation, the refinement limit and the digits of the older methods are not checked, and a refused command line still returns 0.", "quantifier": "for all command lines, numbers of ranks and points, draws of the random numbers, orders left by the evaluations and the sort", "why_tests_cant": "The defaults are divisible by the usual numbers of ranks, for which the comparison is right; for others the printed error is a wrong measure of a right result.", "anchors": ["demo/basic/testmain.cc"]}
{"id": "C99", "title": "Resources of the trees", "statement": "Every node, gate and lock of a tree is acquired once and released at most once, and nothing else is released, whatever the branches, the numbers of records and the owners of the cells. On the owner the branch has a node for each of its nodes, on other ranks a block with as many. What is left when the tree is deleted is, for each cell of another rank, its gate if the cell is empty, and its block of no nodes if the cell has records but no children; nothing else. So nothing is left exactly if every cell is the rank's own or has children, in particular on a single rank; on several, each evaluation loses the gates of the empty cells.", "quantifier": "for all numbers of cells, branches, record counts, owners and ranks", "why_tests_cant": "The leaks are small and only appear with several ranks; a node freed twice or a gate freed too often appears only for some shapes of the branches.", "anchors": ["include/dashmm/tree.h", "include/dashmm/node.h", "include/dashmm/dualtree.h", "include/dashmm/dag.h"]}
{"id": "C100", "title": "Life of a DAG", "statement": "When a DAG has been built by a built-in method on usable trees, every rank makes one LCO each for exactly the expansions and target leaves that have its locality, for every choice of localities and in every order. Destroying them, in any order, meets only nodes with an LCO, destroys none twice and leaves none; the destructor of the DAG deletes each node once. The tree cannot serve a second DAG: since the deleted nodes stay in the tree's records, every later creation stops at a failing assertion. The action of an ExpansionLCO runs only when as many contributions as it has in edges have come since the last reset. It holds at most one expansion at a time, deletes each once and leaves none, over any number of evaluations and resets, if it is reset and destroyed only when its spawned action has ended; when it is destroyed as soon as all contributions are made, the action uses what was deleted.", "quantifier": "for all trees, built-in methods, schedules, localities, orders of creation and destruction, numbers of edges and evaluations", "why_tests_cant": "Leaks and double deletions need not show, the target walk stops early at target leaves, and the race at the end needs a particular interleaving; the public interface allows a second DAG, but the demos never make one.", "anchors": ["include/dashmm/dualtree.h:1363-1490", "include/dashmm/dualtree.h:394-415", "include/dashmm/dualtree.h:1926-1945", "include/dashmm/dag.h:55-61", "include/dashmm/dag.h:131-144", "include/dashmm/dag.h:238-275", "include/dashmm/expansionlco.h:109-182", "include/dashmm/expansionlco.h:338-474", "include/dashmm/evaluator.h:147-243"]}
{"id": "C101", "title": "Reference data of the tests", "statement": "makepoints accepts a command line exactly if no option is unknown or help and the last distribution given is cube, sphere or plummer. With cube or sphere every source and target gets its index, in order, and a position made of random numbers of its own that lies in the unit cube or on the unit sphere, every source a charge of absolute value between 1 and 2 (positive with a single sign), and the tables are made for a domain that holds all points. With one of the three kernels one file is left that has the exact potentials of that kernel at these points and nothing else. The points do not depend on the kernel, so the files of two kernels can be combined and the result has both potentials for the same points; they do depend on whether a single sign is used. Different arguments give different file names. With plummer neither charges nor indices are set, with another kernel name the program ends with an exception or writes past its buffer, and compiled with NDEBUG it writes nothing, of which combine says nothing.", "quantifier": "for all sequences of random numbers, option lists, numbers of sources and targets, kernels' sums", "why_tests_cant": "The accuracy tests take these files for the truth, and nothing checks the files; only the offered arguments are ever used.", "anchors": ["test/makepoints/makepoints.cc:36-129", "test/makepoints/makepoints.cc:131-213", "test/makepoints/makepoints.cc:216-290", "test/makepoints/makepoints.cc:293-351"]}
{"id": "C102", "title": "Expansions that fit a method, and the memory of their views", "statement": "Direct and Barnes-Hut can be evaluated with every built-in expansion and the one of the demo, FMM with Laplace and the demo's, FMM97 with Laplace, Yukawa and Helmholtz: in whatever order edges are served and messages arrive, no null pointer is met, every view that comes in has its place, nothing in a message is freed and no block is freed twice; a node has one expansion however many messages reach it, and those that have one, or will when a message arrives, are the ends of the edges served whose operation makes one; at every moment the blocks in use are those of the views of the LCOs' expansions, and when these are deleted none is left. Nothing refuses the other pairs. They end at a null pointer exactly if the DAG has an edge whose operation the expansion has no result for: FMM with Yukawa or Helmholtz if a target box that is reached has a source box in its V list (with the center of mass expansions also one in its X list, or if it is below level 2), FMM97 with the demo's expansion if there is a source box at level 2 or below. I_to_I between a box and its own parent would lose a block, but the methods never ask for it.", "quantifier": "for all trees, methods, expansions and orders of serving edges and of messages arriving", "why_tests_cant": "The pairs that do not fit compile, and fail only when the trees are deep enough; a lost block has no effect on the results.", "anchors": ["include/dashmm/expansionlco.h:200-283", "include/dashmm/expansionlco.h:333-360", "include/dashmm/expansionlco.h:545-686", "include/builtins/laplace.h:87-126", "include/builtins/laplace.h:322-337", "include/builtins/yukawa.h:202", "include/builtins/helmholtz.h:317", "include/builtins/helmholtz.h:683-748", "include/builtins/laplace_com.h:171-248", "src/laplace.cc:385-447", "src/yukawa.cc:625-690"]}
