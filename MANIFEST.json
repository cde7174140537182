{
 "claims": [
  {
   "property": "C01",
   "status": "proved",
   "theorems": [
    "C01_child",
    "C01_child_of_parent",
    "C01_parent_iterates",
    "C01_child_injective",
    "C01_grid_closed",
    "C01_ancestor_in_grid",
    "C01_root",
    "C01_equality",
    "C01_no_overflow"
   ],
   "note": "Indices inside the grid of their level."
  },
  {
   "property": "C02",
   "status": "proved",
   "theorems": [
    "C02_key_is_slot",
    "C02_bijection",
    "C02_ancestor_slot",
    "C02_wrap_at_11_refuted"
   ],
   "note": "Proved for uniform levels up to 10; C02_wrap_at_11_refuted shows the 32-bit slot number is not injective at level 11."
  },
  {
   "property": "C03",
   "status": "proved",
   "theorems": [
    "C03_top_tree_complete"
   ],
   "note": "Proved for 1<=L<=10 (the slot number wraps above)."
  },
  {
   "property": "C04",
   "status": "proved",
   "theorems": [
    "C04_walk_finds",
    "C04_index_unique",
    "C04_lookup_iff",
    "C04_dual_lookup_iff"
   ],
   "note": "Every tree shape, every index and operation."
  },
  {
   "property": "C05",
   "status": "proved",
   "theorems": [
    "C05_hilbert_bijection"
   ],
   "note": "All levels; the int key of the code is exact up to level 10."
  },
  {
   "property": "C06",
   "status": "proved",
   "theorems": [
    "C06_hilbert_continuous"
   ],
   "note": "All levels."
  },
  {
   "property": "C07",
   "status": "proved",
   "theorems": [
    "C07_morton_interleaves",
    "C07_morton_injective",
    "C07_morton_range",
    "C07_morton_child"
   ],
   "note": "Coordinates below 2^21, the range the code masks to."
  },
  {
   "property": "C08",
   "status": "proved",
   "theorems": [
    "C08_partition_succeeds_iff",
    "C08_partition_contiguous",
    "C08_few_points_refuted",
    "C08_heavy_first_cell_refuted",
    "C08_distribution"
   ],
   "note": "As first stated the claim is false: C08_few_points_refuted and C08_heavy_first_cell_refuted give the failing inputs. C08_partition_succeeds_iff gives the exact success condition; under it the claim holds."
  },
  {
   "property": "C09",
   "status": "proved",
   "theorems": [
    "C09_cuts_nearest",
    "C09_load_bound"
   ],
   "note": "For every successful partition."
  },
  {
   "property": "C10",
   "status": "proved",
   "theorems": [
    "C10_hull",
    "C10_order_independent",
    "C10_cube",
    "C10_cubify",
    "C10_beyond_identity_refuted"
   ],
   "note": "Rational coordinates instead of doubles. Hull and cube for any distribution and reduction order; positions outside +-1e50 refuted."
  },
  {
   "property": "C11",
   "status": "proved",
   "theorems": [
    "C11_assignment",
    "C11_coincident_points_refuted"
   ],
   "note": "Rational coordinates instead of doubles; levels 0..10. Coincident points (side 0) are shown to divide by zero."
  },
  {
   "property": "C12",
   "status": "proved",
   "theorems": [
    "C12_group_stable",
    "C12_group_permutation"
   ],
   "note": "Stable grouping by cell for every assignment of cells."
  },
  {
   "property": "C13",
   "status": "proved",
   "theorems": [
    "C13_messages",
    "C13_parcel_large_enough",
    "C13_parcel_exact_refuted"
   ],
   "note": "Byte-level model of send_points and recv_points with arbitrary initial parcel contents and any serializers meeting their contract. The total counts must fit an int. C13_parcel_exact_refuted shows the over-allocation caused by the running total bytes_source."
  },
  {
   "property": "C14",
   "status": "proved",
   "theorems": [
    "C14_merge_any_moment",
    "C14_merge_complete",
    "C14_same_s_and_t"
   ],
   "note": "Any order and any split of arrivals; the per-cell lock is modelled as atomicity of a batch. Totals below 2^31 (int offsets in the code)."
  },
  {
   "property": "C15",
   "status": "proved",
   "theorems": [
    "C15_refinement",
    "C15_shape",
    "C15_boxes"
   ],
   "note": "Every outcome of std::partition within its contract. C15_refinement and C15_shape hold for arbitrary centre tests (rounded or exact); C15_boxes is for exact arithmetic. Child tasks own disjoint segments and are run in order in the model."
  },
  {
   "property": "C16",
   "status": "proved",
   "theorems": [
    "C16_terminates_iff",
    "C16_only_failure",
    "C16_separated_points_terminate",
    "C16_coincident_points_diverge"
   ],
   "note": "Depth bound in exact arithmetic; the exact termination condition and the divergence result hold for arbitrary tests."
  },
  {
   "property": "C17",
   "status": "proved",
   "theorems": [
    "C17_same_tree"
   ],
   "note": "For arbitrary centre tests and any std::partition / std::partition_point meeting their contracts."
  },
  {
   "property": "C18",
   "status": "proved",
   "theorems": [
    "C18_no_failure",
    "C18_not_early",
    "C18_finite",
    "C18_complete"
   ],
   "note": "All interleavings of task steps, gate inputs in flight and continuations; HPX-5 and-gates and call_when are modelled from their documented meaning."
  },
  {
   "property": "C19",
   "status": "proved",
   "theorems": [
    "C19_round_trip",
    "C19_count"
   ],
   "note": "Every branch shape; the int node count is taken as exact."
  },
  {
   "property": "C20",
   "status": "proved",
   "theorems": [
    "C20_pruning",
    "C20_parents"
   ],
   "note": "Uniform levels 1 to 10 (the range of C03); the uniform cells may have any branches below them."
  },
  {
   "property": "C21",
   "status": "proved",
   "theorems": [
    "C21_allocate",
    "C21_total",
    "C21_already_allocated"
   ],
   "note": "All rank counts, contribution orders and reduction shapes; the runtime's reduction is modelled as any tree over the ranks. Outcome of each memory request is an arbitrary input."
  },
  {
   "property": "C22",
   "status": "proved",
   "theorems": [
    "C22_get"
   ],
   "note": "All ranks, ranges and buffers; hpx_gas_try_pin is assumed to succeed on the local block."
  },
  {
   "property": "C23",
   "status": "proved",
   "theorems": [
    "C23_put_correct_iff",
    "C23_put_effect",
    "C23_put_invalid",
    "C23_put_refuted"
   ],
   "note": "As intended the claim is false: C23_put_refuted. C23_put_correct_iff gives the exact condition and C23_put_effect what happens otherwise."
  },
  {
   "property": "C24",
   "status": "proved",
   "theorems": [
    "C24_collect",
    "C24_collect_total_needed"
   ],
   "note": "Every order of the individual record writes of the concurrent replies; serializers meeting the documented contract with positive sizes. C24_collect_total_needed shows the total of rank 0 must be current."
  },
  {
   "property": "C25",
   "status": "proved",
   "theorems": [
    "C25_foreach_any_schedule",
    "C25_foreach_terminates"
   ],
   "note": "Every interleaving of the spawned tasks. The product threads*factor is taken as exact."
  },
  {
   "property": "C26",
   "status": "proved",
   "theorems": [
    "C26_slice_no_wrap",
    "C26_slice_escapes_iff",
    "C26_slice_wrap_refuted",
    "C26_slice_compose"
   ],
   "note": "As stated for all 64-bit arguments the claim is false (C26_slice_wrap_refuted); C26_slice_escapes_iff gives exactly the failing arguments and C26_slice_no_wrap proves the claim for all others."
  },
  {
   "property": "C27",
   "status": "proved",
   "theorems": [
    "C27_any_operations",
    "C27_round_trip",
    "C27_failed_array_write",
    "C27_write_succeeds_iff",
    "C27_empty_write_on_full_refuted",
    "C27_byte_write",
    "C27_read",
    "C27_buffer_to_buffer",
    "C27_interpret"
   ],
   "note": "Every operation sequence. C27_empty_write_on_full_refuted records that zero-size byte writes on a full buffer report failure."
  },
  {
   "property": "C28",
   "status": "proved",
   "theorems": [
    "C28_round_trip",
    "C28_round_trip_spare",
    "C28_serialize_succeeds_iff",
    "C28_trailing_empty_view_refuted"
   ],
   "note": "As stated false for a trailing empty view (C28_trailing_empty_view_refuted); C28_serialize_succeeds_iff gives the exact condition and C28_round_trip the round trip under it."
  },
  {
   "property": "C29",
   "status": "proved",
   "theorems": [
    "C29_counts",
    "C29_no_deadlock",
    "C29_dag"
   ],
   "note": "Every interleaving of the locked steps of any number of threads; increments and push_backs are split in read and write. Also: no deadlock, every run has the same length, and the counts for the DAGs of the four methods. The weight of an edge is left out of the model; hpx semaphores are modelled as atomic counters."
  },
  {
   "property": "C30",
   "status": "proved",
   "theorems": [
    "C30_safe",
    "C30_delivery",
    "C30_ends",
    "C30_signal",
    "C30_starved_hangs",
    "C30_values",
    "C30_values_unique",
    "C30_end_exists",
    "C30_methods",
    "C30_methods_fed",
    "C30_fmm_evaluation_hangs_refuted"
   ],
   "note": "Steps interleave: one edge of a spawn_out_edges/instigate loop, one message, one LCO set, one release, one termination notice. Values are an abstract commutative monoid (floating point addition is not associative: the order of additions changes rounding). HPX-5 (delivery of every parcel, LCO locks, call_when) is trusted."
  },
  {
   "property": "C31",
   "status": "proved",
   "theorems": [
    "C31_direct_bh",
    "C31_fmm",
    "C31_fmm97",
    "C31_every_node_fed_refuted"
   ],
   "note": "The original claim (every node with an output has an input) is refuted for FMM and FMM97 by C31_every_node_fed_refuted; the theorems give the exact set of exceptions."
  },
  {
   "property": "C32",
   "status": "proved",
   "theorems": [
    "C32_start_chunks_tile",
    "C32_reset_chunks_tile",
    "C32_local_nodes_processed_once"
   ],
   "note": "Every legal outcome of std::partition; n_workers at least 1."
  },
  {
   "property": "C33",
   "status": "proved",
   "theorems": [
    "C33_edges_once_per_rank",
    "C33_out_edges_once_per_rank"
   ],
   "note": "Every outcome of std::sort; edge contents are opaque."
  },
  {
   "property": "C34",
   "status": "proved",
   "theorems": [
    "C34_source_messages",
    "C34_source_receiver",
    "C34_StoM_wrong_tree_refuted",
    "C34_no_StoM_message",
    "C34_expansion_messages",
    "C34_expansion_receiver",
    "C34_unknown_fails"
   ],
   "note": "Byte-level model of both messages, with the scratch block reused across runs and arbitrary initial contents. Holds for any serializer meeting its contract and any sort outcome; the receiver's int count needs a run of edges below 2^31 bytes. C34_StoM_wrong_tree_refuted shows the latent wrong-tree lookup, C34_no_StoM_message why it is not reached."
  },
  {
   "property": "C35",
   "status": "proved",
   "theorems": [
    "C35_direct"
   ],
   "note": "Direct method: DAG built from any two trees with eight slots; every source leaf reaches every stopping target by exactly one StoT edge, in every schedule."
  },
  {
   "property": "C36",
   "status": "proved",
   "theorems": [
    "C36_barnes_hut"
   ],
   "note": "Barnes-Hut for an arbitrary acceptance test; the safety of the real test is C37."
  },
  {
   "property": "C37",
   "status": "proved",
   "theorems": [
    "C37_mac",
    "C37_safe_if_not_below",
    "C37_tested_point",
    "C37_below_is_farthest",
    "C37_dag",
    "C37_accepts_too_much_refuted"
   ],
   "note": "Original wording refuted by C37_accepts_too_much_refuted (nearest() picks +len also for offsets below -len); statement amended. Exact rational coordinates, the angle in the reals (uses the standard library's axioms of the reals)."
  },
  {
   "property": "C38",
   "status": "proved",
   "theorems": [
    "C38_fmm",
    "C38_stops",
    "C38_schedule_exists"
   ],
   "note": "Any-schedule statement: good_dag; C38_schedule_exists shows schedules exist."
  },
  {
   "property": "C39",
   "status": "proved",
   "theorems": [
    "C39_fmm97",
    "C39_stops"
   ],
   "note": "That ItoI acts on exactly the non-adjacent children is part of 'effective'; the tables realising it are C40."
  },
  {
   "property": "C40",
   "status": "proved",
   "theorems": [
    "C40_shares",
    "C40_views",
    "C40_yukawa_weight_refuted",
    "C40_fmm97"
   ],
   "note": "Tables and switch lists copied by script from the source; the finite check (216 offsets, 8 children, 4 kinds of expansion) is done by the kernel's vm and lifted to all indices; tied to the edges of the FMM97 DAG. Wave coefficients themselves are not modelled. Yukawa/Helmholtz weight_estimate always returns 0 for ItoI (shadowed variable): C40_yukawa_weight_refuted."
  },
  {
   "property": "C41",
   "status": "proved",
   "theorems": [
    "C41_placing",
    "C41_barnes_hut",
    "C41_fmm97",
    "C41_same_on_all_ranks",
    "C41_single",
    "C41_random",
    "C41_StoM_local"
   ],
   "note": "All four built-in methods, usable trees, uniform level at most 10, any rank map in range. Edge weights are arbitrary integers (no overflow in their sums); std::sort is any permutation sorted by color; the random engine is any stream of draws in range."
  },
  {
   "property": "C42",
   "status": "proved",
   "theorems": [
    "C42_acyclic"
   ],
   "note": "All four built-in methods."
  },
  {
   "property": "C43",
   "status": "proved",
   "theorems": [
    "C43_combination",
    "C43_any_order",
    "C43_positive",
    "C43_zero_total_refuted",
    "C43_neutral_centre_refuted"
   ],
   "note": "Exact arithmetic over the reals. Merging two groups without sources is excluded too (it divides zero by zero)."
  },
  {
   "property": "C44",
   "status": "proved",
   "theorems": [
    "C44_int_sum",
    "C44_size_sum",
    "C44_int_max",
    "C44_order_independent",
    "C44_return_code",
    "C44_int_sum_mixed_signs_refuted"
   ],
   "note": "Unsigned sums with wrap-around, max, and non-negative int counts. For int sums with mixed signs the claim is false (C44_int_sum_mixed_signs_refuted): a partial sum can overflow. How the runtime calls the operators is not modelled (reductionops.cc:75-82 registers int_max_op with two argument types although its handler takes three)."
  },
  {
   "property": "C45",
   "status": "proved",
   "theorems": [
    "C45_window",
    "C45_exact_iff",
    "C45_last_events_lost_refuted"
   ],
   "note": "Exact condition proved; the original claim is refuted (events at the last stamp are lost). std::partition_point by contract; uint64 wrap not modelled."
  },
  {
   "property": "C46",
   "status": "proved",
   "theorems": [
    "C46_tiling",
    "C46_overlap_faces_only",
    "C46_children_tile",
    "C46_corners"
   ],
   "note": "Rational coordinates instead of doubles."
  },
  {
   "property": "C47",
   "status": "proved",
   "theorems": [
    "C47_no_failure",
    "C47_sources",
    "C47_targets",
    "C47_all_ranks",
    "C47_same_s_and_t"
   ],
   "note": "Composes the models of C11, C12, C13, C14, C15 and C44 for any number of ranks, any reduction order of the counts and any arrival order. Coordinates are exact rationals; uniform levels 0 to 9 (level 10 would overflow the int 2*dim3). Termination of the adaptive partition is C16, so C47 speaks about finished runs of it."
  },
  {
   "property": "C48",
   "status": "proved",
   "theorems": [
    "C48_repeats",
    "C48_reset_at_signal_refuted"
   ],
   "note": "Original wording refuted by C48_reset_at_signal_refuted (release of expansion data races with the reset); statement amended to the exact condition. Expansions without outputs are never freed by an evaluation and keep accumulating, but their data is never read."
  },
  {
   "property": "C49",
   "status": "proved",
   "theorems": [
    "C49_pairs",
    "C49_no_stale",
    "C49_combine",
    "C49_any_calls",
    "C49_mismatch_refused"
   ],
   "note": "Collator keyed by segment type, one per worker as in SQLiteWriter::EventTable."
  },
  {
   "property": "C50",
   "status": "proved",
   "theorems": [
    "C50_points_in_boxes"
   ],
   "note": "Rational coordinates instead of doubles."
  },
  {
   "property": "C51",
   "status": "proved",
   "theorems": [
    "C51_coverage",
    "C51_inside_segment_refuted",
    "C51_touching_refuted"
   ],
   "note": "Covered time before the division by end - start; exact success condition; two refutations (touching segments, window inside a segment)."
  },
  {
   "property": "C52",
   "status": "proved",
   "theorems": [
    "C52_wrong_sign_refuted",
    "C52_direct",
    "C52_single",
    "C52_worse_than_monopole_refuted"
   ],
   "note": "Code finding: quaddenom carries a minus sign. Refutes the intended accuracy for all source sets."
  },
  {
   "property": "C53",
   "status": "proved",
   "theorems": [
    "C53_only_empty_messages",
    "C53_safe",
    "C53_freed_before_use_refuted"
   ],
   "note": "All schedules of the tasks of all ranks. The unconditional claim is false (C53_freed_before_use_refuted): nothing waits for messages without points."
  },
  {
   "property": "C54",
   "status": "proved",
   "theorems": [
    "C54_completes",
    "C54_not_early",
    "C54_order",
    "C54_leak_refuted"
   ],
   "note": "All schedules. The leak of the gates of empty foreign cells is exact (C54_leak_refuted)."
  },
  {
   "property": "C55",
   "status": "proved",
   "theorems": [
    "C55_hull",
    "C55_domain",
    "C55_cells",
    "C55_tiny_domain_refuted",
    "C55_exact_cell_refuted"
   ],
   "note": "IEEE binary64, round to nearest even, each operation rounded on its own (no fused multiply-add, no extended precision). False for domains narrower than the bound: C55_tiny_domain_refuted."
  },
  {
   "property": "C56",
   "status": "proved",
   "theorems": [
    "C56_refined",
    "C56_tree",
    "C56_corners"
   ],
   "note": "IEEE binary64 as in C55. pow(2, level) taken as exact. Boxes are those of the stored corner and side."
  },
  {
   "property": "C57",
   "status": "proved",
   "theorems": [
    "C57_fmm_lists",
    "C57_fmm97_lists",
    "C57_fmm_bounds",
    "C57_fmm97_bounds"
   ],
   "note": "Exact edge sets of both DAGs against lists defined by touching boxes, and sharp bounds on the list lengths. The order of the edges is not part of the statement."
  },
  {
   "property": "C58",
   "status": "proved",
   "theorems": [
    "C58_legendre",
    "C58_all_entries",
    "C58_outside",
    "C58_sqf"
   ],
   "note": "Over the reals, rounding is not modelled. The spec is the formula of Rodrigues (LegSpec)."
  },
  {
   "property": "C59",
   "status": "proved",
   "theorems": [
    "C59_multipole",
    "C59_local",
    "C59_multipole_regular",
    "C59_local_regular",
    "C59_adds"
   ],
   "note": "Over the reals, rounding is not modelled. Potential only: no caller asks for the field. The first version without moved positions is false near the axis, see seen in LapSpec. sqf in the hypotheses is the table the code builds (C58_sqf)."
  },
  {
   "property": "C60",
   "status": "proved",
   "theorems": [
    "C60_source_at_centre_refuted",
    "C60_target_at_centre_refuted",
    "C60_only_centre"
   ],
   "note": "A point at the centre has no expansion (refuted: that every set of sources has one). A NaN is a failure in the model."
  },
  {
   "property": "C61",
   "status": "proved",
   "theorems": [
    "C61_table",
    "C61_binomials",
    "C61_rotations",
    "C61_rounding",
    "C61_too_far",
    "C61_digits_refuted"
   ],
   "note": "Real arithmetic. Refuted: that 0 digits, which the constructor accepts, give a table. Only the tables of the translations through multipole and local expansions are covered; C67 covers the others, which exist only for 3, 6 and 9 digits."
  },
  {
   "property": "C62",
   "status": "proved",
   "theorems": [
    "C62_rounded",
    "C62_exact",
    "C62_total",
    "C62_upward"
   ],
   "note": "Real arithmetic. Exactness is stated for points away from the directions the code rounds; the error bound for all points, at the places the code rounds them to."
  },
  {
   "property": "C63",
   "status": "proved",
   "theorems": [
    "C63_exact"
   ],
   "note": "Real arithmetic, for points away from the directions the code rounds."
  },
  {
   "property": "C64",
   "status": "proved",
   "theorems": [
    "C64_total",
    "C64_m_to_l",
    "C64_downward"
   ],
   "note": "Real arithmetic. The bound for the passes is for the placement of boxes the methods use (C57)."
  },
  {
   "property": "C65",
   "status": "proved",
   "theorems": [
    "C65_fmm",
    "C65_additions",
    "C65_in_place"
   ],
   "note": "Over the reals, for records in the closed boxes of their nodes (doubles put some a few units in the last place outside, C55), not within 1e-14 of a box's centre line (C62_rounded says what happens there), and evaluations that end (C30 says which do). Intermediate expansions (FMM97) are not covered."
  },
  {
   "property": "C66",
   "status": "proved",
   "theorems": [
    "C66_s_to_t",
    "C66_direct",
    "C66_barnes_hut"
   ],
   "note": "As C65. The code's own acceptance test gives the angle only under the condition of C37."
  },
  {
   "property": "C67",
   "status": "proved",
   "theorems": [
    "C67_table",
    "C67_digits_refuted",
    "C67_six_refuted"
   ],
   "note": "Real arithmetic; the constants are those of the source, as decimal numbers. Refuted: that the other numbers of digits up to 14 give a complete table, and that 6 digits get their own quadrature."
  },
  {
   "property": "C68",
   "status": "proved",
   "theorems": [
    "C68_wave",
    "C68_all_frequencies",
    "C68_M_to_I"
   ],
   "note": "Real arithmetic, exact statement including truncation. C68_wave: the truncated wave exists and is unique."
  },
  {
   "property": "C69",
   "status": "proved",
   "theorems": [
    "C69_shift",
    "C69_twice"
   ],
   "note": "Real arithmetic."
  },
  {
   "property": "C70",
   "status": "proved",
   "theorems": [
    "C70_e_to_l"
   ],
   "note": "Real arithmetic, exact statement including truncation."
  },
  {
   "property": "C71",
   "status": "proved",
   "theorems": [
    "C71_total",
    "C71_worth",
    "C71_chain",
    "C71_accuracy"
   ],
   "note": "Real arithmetic. Exact in terms of the quadrature of each wave; how accurate the quadrature is for the constants in the source is a hypothesis of C71_accuracy."
  },
  {
   "property": "C72",
   "status": "proved",
   "theorems": [
    "C72_fmm97",
    "C72_some_bound",
    "C72_in_place"
   ],
   "note": "The accuracy of the quadrature constants is a hypothesis (accurate); that some bound exists is proved for every table, not how small it is."
  },
  {
   "property": "C73",
   "status": "proved",
   "theorems": [
    "C73_sources",
    "C73_targets",
    "C73_same",
    "C73_builds",
    "C73_top"
   ],
   "note": "C73_top is stated for the source tree. Coordinates are exact rationals."
  },
  {
   "property": "C74",
   "status": "proved",
   "theorems": [
    "C74_depth",
    "C74_built",
    "C74_fmm",
    "C74_fmm97",
    "C74_direct",
    "C74_barnes_hut"
   ],
   "note": "Composition of C10, C11, C47, C73, C57, C65, C66 and C72 for the Laplace kernel over the reals; the Barnes-Hut acceptance enters as in C66 (see C37 for the code's test)."
  },
  {
   "property": "C75",
   "status": "proved",
   "theorems": [
    "C75_combination",
    "C75_any_order",
    "C75_positive",
    "C75_zero_total_refuted",
    "C75_field",
    "C75_direct",
    "C75_direct_gradient",
    "C75_direct_potential",
    "C75_gradient",
    "C75_classes_disagree_refuted",
    "C75_single"
   ],
   "note": "The combination rule, the field to second order (componentwise derivative of the field with scaled distances), the direct sum as a gradient. The refuted parts: the sign against LaplaceCOM, and totals of zero."
  },
  {
   "property": "C76",
   "status": "proved",
   "theorems": [
    "C76_bessel_k",
    "C76_bessel_i",
    "C76_sqf"
   ],
   "note": "bessel_In is a parameter with a relative accuracy; C87 proves it for the code"
  },
  {
   "property": "C77",
   "status": "proved",
   "theorems": [
    "C77_scale",
    "C77_multipole",
    "C77_local",
    "C77_multipole_regular",
    "C77_local_regular",
    "C77_direct",
    "C77_direct_self",
    "C77_adds"
   ],
   "note": "real arithmetic; bessel_In is a parameter with a relative accuracy, C87 proves it for the code; M_to_M, M_to_L, L_to_L and waves of this kernel not modelled"
  },
  {
   "property": "C78",
   "status": "proved",
   "theorems": [
    "C78_at_centre_refuted",
    "C78_too_far_refuted",
    "C78_too_far_source_refuted",
    "C78_beyond_100_refuted",
    "C78_other_accuracies_refuted"
   ],
   "note": "refutations of the unrestricted claim"
  },
  {
   "property": "C79",
   "status": "proved",
   "theorems": [
    "C79_bound",
    "C79_records",
    "C79_larger_leaves_refuted"
   ],
   "note": "The acceptance test of bh_method.h (C37) in whole evaluations: C79_bound and C79_records give the effective angle when target leaves are not much larger than source boxes; C79_larger_leaves_refuted shows, with an actual evaluation, that there is no bound otherwise. Laplace kernel, real arithmetic."
  },
  {
   "property": "C80",
   "status": "proved",
   "theorems": [
    "C80_bessel_j",
    "C80_bessel_h",
    "C80_small_argument_refuted"
   ],
   "note": "Accuracy of bessel_Jn and bessel_Yn is a hypothesis (computes_J, computes_Y). The range below 1e-4 is refuted (C80_small_argument_refuted) and the statement amended."
  },
  {
   "property": "C81",
   "status": "proved",
   "theorems": [
    "C81_scale",
    "C81_multipole",
    "C81_local",
    "C81_multipole_regular",
    "C81_local_regular",
    "C81_direct",
    "C81_direct_self",
    "C81_adds"
   ],
   "note": "Real arithmetic; accuracy of bessel_Jn and bessel_Yn is a hypothesis. Multipole theorem also for directions the code rounds (seen positions); sources of local expansions must be off these directions, because their azimuth is set to 0 there."
  },
  {
   "property": "C82",
   "status": "proved",
   "theorems": [
    "C82_at_centre_refuted",
    "C82_small_distance_refuted",
    "C82_small_domain_refuted",
    "C82_deep_refuted",
    "C82_other_accuracies_refuted"
   ],
   "note": "The expected behaviour is refuted in each of the cases listed; the statement says what happens."
  },
  {
   "property": "C83",
   "status": "proved",
   "theorems": [
    "C83_quadrature",
    "C83_three_digits_refuted"
   ],
   "note": "The weight and wave lengths are the literals of the table; error bounded by interval arithmetic on cells, computed in the kernel. The three digits one would expect are refuted (C83_three_digits_refuted) and the statement says what holds."
  },
  {
   "property": "C84",
   "status": "proved",
   "theorems": [
    "C84_quadrature",
    "C84_fmm97",
    "C84_run"
   ],
   "note": "C72 and C74 for three digits with the quadrature hypothesis discharged; six and nine digits keep it (C72)."
  },
  {
   "property": "C85",
   "status": "proved",
   "theorems": [
    "C85_kinds",
    "C85_segments",
    "C85_name",
    "C85_name_refuted",
    "C85_contents",
    "C85_truncated",
    "C85_header",
    "C85_file",
    "C85_long_header_refuted"
   ],
   "note": "Lenient names and too long headers are refuted wordings."
  },
  {
   "property": "C86",
   "status": "proved",
   "theorems": [
    "C86_load",
    "C86_zero",
    "C86_order",
    "C86_empty_refuted",
    "C86_zero_order_refuted",
    "C86_before_zero_refuted",
    "C86_touching_refuted"
   ],
   "note": "std::sort is a parameter meeting its contract; the refuted wordings are stated in the property."
  },
  {
   "property": "C87",
   "status": "proved",
   "theorems": [
    "C87_bessel_In",
    "C87_gamma",
    "C87_out_of_range",
    "C87_bessel_i",
    "C87_multipole",
    "C87_local",
    "C87_multipole_regular",
    "C87_local_regular"
   ],
   "note": "real arithmetic; the branch for x < 1e-4 and the rescaling beyond 1e292 are not modelled, the theorem shows that these calls do not get there; line 1021 divides by k where the recurrence has x, and the theorem holds with that"
  },
  {
   "property": "C88",
   "status": "proved",
   "theorems": [
    "C88_additions",
    "C88_direct",
    "C88_barnes_hut",
    "C88_own",
    "C88_records"
   ],
   "note": "Over the reals. Barnes-Hut for positive charges and a single kind of source and target record; C90 does the same for LaplaceCOMAcc."
  },
  {
   "property": "C89",
   "status": "proved",
   "theorems": [
    "C89_yukawa",
    "C89_helmholtz",
    "C89_accelerations",
    "C89_records"
   ],
   "note": "Over the reals. The kernels have positive parameters; a single kind of source and target record."
  },
  {
   "property": "C90",
   "status": "proved",
   "theorems": [
    "C90_additions",
    "C90_barnes_hut",
    "C90_own",
    "C90_records"
   ],
   "note": "Over the reals, for positive charges and a single kind of source and target record."
  },
  {
   "property": "C91",
   "status": "proved",
   "theorems": [
    "C91_database",
    "C91_times",
    "C91_negative_locality_refuted",
    "C91_names_refuted",
    "C91_many_events_refuted"
   ],
   "note": "proved; names carry a NUL, negative localities have no row and ids in segments wrap beyond 2^31 events: see the refuted theorems"
  },
  {
   "property": "C92",
   "status": "proved",
   "theorems": [
    "C92_plot",
    "C92_bars",
    "C92_room",
    "C92_many_workers_refuted",
    "C92_share",
    "C92_loaded",
    "C92_inside_refuted",
    "C92_last_event_refuted",
    "C92_no_workers_refuted",
    "C92_utilization_refuted",
    "C92_utilization_empty"
   ],
   "note": "pp, the binary search of the C++ library, obeys its contract as in C45; the trace is in order, which C92_loaded derives for traces read from files; windows of at most 2^49 ns; pngwriter is not modelled"
  },
  {
   "property": "C93",
   "status": "proved",
   "theorems": [
    "C93_evaluation",
    "C93_path",
    "C93_pull_refuted",
    "C93_momentum",
    "C93_start"
   ],
   "note": "exact arithmetic; C93_evaluation derives the premise on evaluations from what C89 and C90 prove; that the particles move as the fields say is refuted"
  },
  {
   "property": "C94",
   "status": "proved",
   "theorems": [
    "C94_counts",
    "C94_all",
    "C94_unplaced_refuted",
    "C94_negative"
   ],
   "note": "That fopen succeeds is assumed; the file is the list of its lines."
  },
  {
   "property": "C95",
   "status": "proved",
   "theorems": [
    "C95_balanced",
    "C95_released",
    "C95_end",
    "C95_move",
    "C95_here",
    "C95_there",
    "C95_snapshot",
    "C95_remote_write",
    "C95_no_room_refuted",
    "C95_assign_refuted",
    "C95_assign_leaks_refuted",
    "C95_wise",
    "C95_destroy_refuted"
   ],
   "note": "a failing pin is taken to mean that the cell is on another rank, and hpx_gas_calloc_cyclic to succeed; that destroying is safe, that assignment can be used and that every object can be used are refuted"
  },
  {
   "property": "C96",
   "status": "proved",
   "theorems": [
    "C96_laplace",
    "C96_parameter",
    "C96_evaluate",
    "C96_used",
    "C96_digits",
    "C96_order",
    "C96_stretched",
    "C96_own",
    "C96_interleaved_refuted"
   ],
   "note": "The wording that each DAG is executed with its own table is refuted by C96_interleaved_refuted; what is used instead is C96_used and C96_stretched. The contents of the Yukawa and Helmholtz tables are any function of digits, size and parameter."
  },
  {
   "property": "C97",
   "status": "proved",
   "theorems": [
    "C97_combine",
    "C97_refused",
    "C97_positions_refuted",
    "C97_first_only_refuted",
    "C97_parameter_refuted",
    "C97_second_refuted",
    "C97_says",
    "C97_success_refuted",
    "C97_three",
    "C97_accepted",
    "C97_digits_refuted",
    "C97_ranks_refuted",
    "C97_unknown_refuted",
    "C97_error",
    "C97_mean",
    "C97_imaginary_refuted"
   ],
   "note": "Files are lists of records; a division by zero fails in the model. The wordings that the tools do not meet are refuted by the theorems with that suffix."
  },
  {
   "property": "C98",
   "status": "proved",
   "theorems": [
    "C98_shared",
    "C98_indices",
    "C98_tests",
    "C98_compared",
    "C98_zero",
    "C98_last",
    "C98_wrong_pair_refuted",
    "C98_calls",
    "C98_kernel",
    "C98_options",
    "C98_accepted",
    "C98_unknown_refuted",
    "C98_unchecked_refuted",
    "C98_refused_refuted",
    "C98_sources",
    "C98_mass",
    "C98_mass_refuted"
   ],
   "note": "Reals for doubles; options as getopt_long returns them; evaluations and sort may leave any order; the refuted parts are stated as such."
  },
  {
   "property": "C99",
   "status": "proved",
   "theorems": [
    "C99_once",
    "C99_left",
    "C99_held",
    "C99_clean",
    "C99_one_rank",
    "C99_released_refuted"
   ],
   "note": "Amended: on several ranks the gates of the empty cells of other ranks and the blocks of no nodes are not released (C99_released_refuted)."
  },
  {
   "property": "C100",
   "status": "proved",
   "theorems": [
    "C100_created",
    "C100_destroyed",
    "C100_deleted",
    "C100_another_refuted",
    "C100_expansions",
    "C100_evaluations",
    "C100_complete",
    "C100_at_once_refuted"
   ],
   "note": "Full for the built-in methods, one rank at a time. Two wordings are refuted: a tree cannot serve a second DAG, and destroying as soon as all contributions are made is not safe. What happens in builds without assertions is not modelled."
  },
  {
   "property": "C101",
   "status": "proved",
   "theorems": [
    "C101_read",
    "C101_refused",
    "C101_points",
    "C101_domain",
    "C101_same",
    "C101_signs_refuted",
    "C101_reference",
    "C101_combined",
    "C101_names",
    "C101_plummer_refuted",
    "C101_kernel_refuted",
    "C101_release_refuted"
   ],
   "note": "Refuted and stated as what happens instead: plummer, other kernel names, builds with NDEBUG, and the same points for single-signed and other charges. What S_to_T adds is a parameter of the model (its sums are the subject of C52, C66 and others)."
  },
  {
   "property": "C102",
   "status": "proved",
   "theorems": [
    "C102_memory",
    "C102_fits",
    "C102_fmm_refuted",
    "C102_fmm97_refuted",
    "C102_one_each",
    "C102_own_parent_refuted"
   ],
   "note": "What the operations write into the views, and blocks taken and given back within one function other than I_to_I, are not modelled; that an edge is served only after its source is complete is C24/C99/C100 and not needed here. The expansion of demo/user is modelled as if it took const sources; as written (non-const pointers, user_expansion.h:209,216,254) the library's calls would not type-check."
  }
 ]
}