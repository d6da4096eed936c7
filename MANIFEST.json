{
 "claims": [
  {
   "property": "C01",
   "status": "proved",
   "theorems": [
    "C01_idset_conforms",
    "C01_no_false_negative"
   ],
   "note": "All histories, sizes and hash functions; I/O errors and short reads/writes not modelled."
  },
  {
   "property": "C02",
   "status": "proved",
   "theorems": [
    "C02_exact_without_exclusions",
    "C02_exact_for_excluded",
    "C01_idset_conforms",
    "C02_exact_for_all_refuted"
   ],
   "note": "Exact for every id passed to add or nadd, exact for all ids when nadd was never called; the unrestricted statement is refuted with a concrete MurmurHash3 collision."
  },
  {
   "property": "C03",
   "status": "proved",
   "theorems": [
    "C03_file_sorted_complete"
   ],
   "note": "File ascending, permutation with multiplicities, block ends; any number of parts."
  },
  {
   "property": "C04",
   "status": "proved",
   "theorems": [
    "C04_full",
    "C04_leafs",
    "C04_contains",
    "C04_size"
   ],
   "note": "for every padding and every common-area function"
  },
  {
   "property": "C05",
   "status": "proved",
   "theorems": [
    "C05_found",
    "C05_exact",
    "C05_exact_refuted"
   ],
   "note": "below the first level the tree is always a chain of equal boxes, so descending into the first child loses nothing; with overlaps points outside all boxes are reported (refuted)"
  },
  {
   "property": "C06",
   "status": "proved",
   "theorems": [
    "C06_meaning",
    "C06_order",
    "C06_read_tags",
    "C06_read_way_tags",
    "C06_level7_refuted",
    "C06_flags_order_refuted"
   ],
   "note": "All filter functions, for every rule set with unique keys and non-zero flags; also that reading only the needed tags changes nothing (except for level 7, refuted)."
  },
  {
   "property": "C07",
   "status": "proved",
   "theorems": [
    "C07_listed",
    "C07_kept",
    "C07_plain",
    "C07_substring_refuted",
    "C07_spaces_refuted"
   ],
   "note": "Every entry of a list is accepted (with at most one space beside the semicolon); converse refuted."
  },
  {
   "property": "C08",
   "status": "proved",
   "theorems": [
    "C08_merged",
    "C08_nothing_else",
    "C08_flags_refuted"
   ],
   "note": "Given that configurations agree on the flags of common rules; refuted without."
  },
  {
   "property": "C09",
   "status": "proved",
   "theorems": [
    "C09_file",
    "C09_tags",
    "C09_way_block",
    "C09_no_ways_refuted"
   ],
   "note": "For every well-formed file (elements in the order nodes, ways, relations, at least one node and one way) and every filter, the relations, ways and nodes that are read are exactly those wanted, in order, with needed tags, node lists and roles. Refuted without ways: the first relation is skipped."
  },
  {
   "property": "C10",
   "status": "proved",
   "theorems": [
    "C10_graph",
    "C10_file",
    "C10_outside_refuted",
    "C10_direction_refuted"
   ],
   "note": "The graph of any list of ways: steps, sharing of graph nodes, lines, level and direction of edges, calls of the restrictor; composed with the reading of the file, positions and states of nodes. Refuted: positions of no-hop nodes outside of the box; direction of edges shared by ways."
  },
  {
   "property": "C11",
   "status": "proved",
   "theorems": [
    "C11_written",
    "C11_closed",
    "C11_relations",
    "C11_first_relation_refuted",
    "C11_member_refuted"
   ],
   "note": "Exact contents of the filtered output, referential closure, completeness of relations. Refuted: the first relation is lost if the last way is written; node members that are missing from the file."
  },
  {
   "property": "C12",
   "status": "proved",
   "theorems": [
    "C12_table_means_history",
    "C12_order_irrelevant",
    "C12_reading_order_irrelevant",
    "C12_two_edges_refuted",
    "C12_same_way_refuted"
   ],
   "note": "Full add/relax/may table for every call sequence; reading order irrelevant where each way has one edge at the node. The two refuted theorems record the exceptions found in the code (way with two edges at the node; restriction from a way onto itself is dropped)."
  },
  {
   "property": "C13",
   "status": "proved",
   "theorems": [
    "C13_split_keeps_turns",
    "C13_opposite_keeps_turns",
    "C13_restrictions_in_directed_graph"
   ],
   "note": "Any table; the split and opposite edges are new, i.e. not yet named by a rule. Self-loop edges excluded."
  },
  {
   "property": "C14",
   "status": "proved",
   "theorems": [
    "C14_collapse",
    "C14_loop_refuted"
   ],
   "note": "Collapsing replaces chains by edges whose line is the lines of the chain in order; false for two opposite one-way edges merged to a loop (refuted)."
  },
  {
   "property": "C15",
   "status": "proved",
   "theorems": [
    "C14_collapse",
    "C15_reachable",
    "C15_codes_refuted"
   ],
   "note": "Chains have one level, the same lines, no restrictions, no stations or turning circles inside, and one-way edges are merged along their direction only; reachability without violating one-way rules is the same before and after. False if a forward meets a reverse one-way edge (refuted)."
  },
  {
   "property": "C16",
   "status": "proved",
   "theorems": [
    "C16_two_way",
    "C16_geometries",
    "C16_self_edges",
    "C16_self_edges_refuted"
   ],
   "note": "Contract for util::geo::simplify (not in the checkout): keeps the first and the last point. A loop that is the only edge of a station gets the cost of a self-edge (refuted)."
  },
  {
   "property": "C17",
   "status": "proved",
   "theorems": [
    "C17_components"
   ],
   "note": "Includes termination of the search. Rounding to float is any monotone idempotent function that keeps 0."
  },
  {
   "property": "C18",
   "status": "proved",
   "theorems": [
    "C18_cost_rounds_up_and_saturates",
    "C18_conversion_defined",
    "C18_edge_cost_exact",
    "C18_edge_cost_never_underestimates",
    "C18_heuristic_rounds_down",
    "C18_saturation_kept_refuted",
    "C18_saturation_defined_refuted"
   ],
   "note": "Exact rationals for doubles. Findings: an already saturated cost is scaled down again by a following discount pass; a cost that saturates is converted to 32 bits before the range is checked."
  },
  {
   "property": "C19",
   "status": "proved",
   "theorems": [
    "C19_both_ways",
    "C19_end",
    "C19_station",
    "C19_flip_refuted",
    "C19_station_refuted"
   ],
   "note": "Without one-way edges nothing is lost and nothing but gaps is bridged; a one-way edge that ends at the deleted node keeps its direction. False for a one-way edge that begins at the deleted node, and for one-way edges at stations (refuted)."
  },
  {
   "property": "C20",
   "status": "proved",
   "theorems": [
    "C20_memory",
    "C20_no_leak",
    "C20_deep_copy",
    "C20_assignment_refuted"
   ],
   "note": "refinement to payloads without memory management; the implicit copy assignment (unused in the checkout) would break it"
  },
  {
   "property": "C21",
   "status": "proved",
   "theorems": [
    "C21_states",
    "C21_others",
    "C21_bound_refuted"
   ],
   "note": "refinement; the bound on the number of station infos is shown to be needed"
  },
  {
   "property": "C22",
   "status": "proved",
   "theorems": [
    "C22_add_saturates",
    "C22_cache_returns_last_stored",
    "C22_drop_needs_all_sources"
   ],
   "note": "SparseMatrix (submodule) assumed to be a map with default 0."
  },
  {
   "property": "C23",
   "status": "proved",
   "theorems": [
    "C23_cost_is_pure",
    "C23_cost_is_function",
    "C23_cost_lower_bound",
    "C23_origin_factor_applies_refuted"
   ],
   "note": "Every call sequence on one cost object; line similarities, angles and restrictor are arbitrary functions. Finding: name factor 1 disables the other two factors."
  },
  {
   "property": "C24",
   "status": "proved",
   "theorems": [
    "C24_heuristic_is_pure",
    "C24_heuristic_admissible",
    "C24_heuristic_consistent",
    "C24_heuristic_zero_at_target",
    "C24_admissible_for_built_graph"
   ],
   "note": "Any distance with triangle inequality, any target set; exact rationals. The rounding of the component speed to float is not modelled."
  },
  {
   "property": "C25",
   "status": "proved",
   "theorems": [
    "C25_chosen_sequence_optimal",
    "C25_moves_are_answers",
    "C25_fallback_penalty_refuted"
   ],
   "note": "For every trie, candidate lists, hop engine and cost type with the stated laws. The penalty of the fallback move wraps in 32 bits (refuted)."
  },
  {
   "property": "C26",
   "status": "proved",
   "theorems": [
    "C26_built_trie_is_tree",
    "C26_hops_connected",
    "C26_one_hop_per_stop_pair"
   ],
   "note": "Connectedness for candidate lists whose departure candidates keep the position of the arrival candidates they continue."
  },
  {
   "property": "C27",
   "status": "proved",
   "theorems": [
    "C27_routing_never_stuck",
    "C27_unreachable_uses_fallback_refuted",
    "C27_single_stop_trip_refuted"
   ],
   "note": "Findings: unreachable edge candidates are cheaper than the position-less fallback; single-stop trips leave the vectors."
  },
  {
   "property": "C28",
   "status": "proved",
   "theorems": [
    "C28_hop_costs_exact",
    "C28_hop_cost_nonneg",
    "C28_hop_distance",
    "C28_fast_hops_sound",
    "C28_fast_best_source",
    "C28_wraps_refuted",
    "C28_fast_same_edge_refuted",
    "C28_fast_limit_wraps_refuted"
   ],
   "note": "Exact characterisation of the 1->n answers, soundness and best-source property of the n->n answers, given a search contract and costs that fit 32 bits; refuted without: wrapped costs, same-edge source, wrapped limit."
  },
  {
   "property": "C29",
   "status": "partial",
   "theorems": [
    "C29_cache_transparent",
    "C29_fast_cache_partial",
    "C29_limit_one_refuted",
    "C29_shared_cache_refuted",
    "C29_fast_cache_refuted",
    "C29_one_cost_structure"
   ],
   "note": "Full transparency for the 1->n engine with one cost structure and limits >= 2; for the n->n engine only hops whose path costs at most the limit are kept (the full statement is refuted), and a cache shared by two cost structures is refuted."
  },
  {
   "property": "C30",
   "status": "proved",
   "theorems": [
    "C30_order_strict_weak",
    "C30_merge_union",
    "C30_merge_order_irrelevant",
    "C30_merge_keeps_name",
    "C30_similarity_queries",
    "C30_stale_similarity_refuted"
   ],
   "note": "Order, merge as set union for every merge tree, memo transparency of similarity queries; stale memo after merge refuted."
  },
  {
   "property": "C31",
   "status": "proved",
   "theorems": [
    "C31_trips_stored_at_their_node",
    "C31_same_node_same_stops",
    "C31_equal_trips_same_node",
    "C31_single_stop_at_root_refuted"
   ],
   "note": "Histories of adds of any length; the comparison of positions is an arbitrary reflexive relation. Finding: a single-stop trip is stored at the root."
  },
  {
   "property": "C32",
   "status": "proved",
   "theorems": [
    "C32_counters_exact",
    "C32_missing_time_is_elapsed_refuted"
   ],
   "note": "Counters are exact; finding: for missing stop times the absolute start time is accumulated."
  },
  {
   "property": "C33",
   "status": "proved",
   "theorems": [
    "C33_rejected_trip_no_effect"
   ],
   "note": "The model keeps partial mutations on the failure path."
  },
  {
   "property": "C34",
   "status": "proved",
   "theorems": [
    "C34_stop_candidates",
    "C34_trie_candidates",
    "C34_trips_get_hops",
    "C34_reach_looks_one_ahead",
    "C34_no_wrong_way_candidates",
    "C34_negative_times_refuted",
    "C34_own_platform_preferred_refuted",
    "C34_snapping_order_refuted"
   ],
   "note": "End to end from trips over trie, candidates and either hop engine to hops. Refuted theorems are findings: the mean time is computed with unsigned numbers (negative elapsed times are undefined behaviour), the platform penalty is charged for the matching platform, and which of two consecutive edges is snapped depends on the order of addresses."
  },
  {
   "property": "C35",
   "status": "proved",
   "theorems": [
    "C35_measures",
    "C57_continuous"
   ],
   "note": "Rounding is any monotone rounding to double and float under which floats are fixed points; haversine is any non-negative function. The measure recurrence, its monotonicity, the sequence numbers and the stop distances are all stated."
  },
  {
   "property": "C36",
   "status": "proved",
   "theorems": [
    "C36_search_ends",
    "C36_id_injective",
    "C36_issued_ids",
    "C36_reissued_id_refuted"
   ],
   "note": "the search ends and yields the first free id; ids issued in a run of any number of workers are pairwise different and not ids of the feed, provided no trip's old shape id has the form of a later new id; without that proviso refuted"
  },
  {
   "property": "C37",
   "status": "proved",
   "theorems": [
    "C37_workers",
    "C37_no_dangling_reference",
    "C37_one_worker_removes_unused",
    "C37_double_remove_refuted",
    "C37_unused_shape_survives_refuted"
   ],
   "note": "every interleaving of any number of workers; shapes of trips that are not processed are kept (no proviso); no dangling references if no old id looks like a new one (refuted otherwise)"
  },
  {
   "property": "C38",
   "status": "proved",
   "theorems": [
    "C38_round_robin",
    "C38_candidate_cache",
    "C38_schedule_irrelevant",
    "C38_workers_finish",
    "C38_no_threads_refuted",
    "C38_each_leaf_once",
    "C38_shape_workers_finish"
   ],
   "note": "round robin, candidate cache, clustering and the atomic counter loop of the shape workers, for every number of workers and schedule"
  },
  {
   "property": "C39",
   "status": "proved",
   "theorems": [
    "C39_route_colours",
    "C39_trips_get_colour",
    "C39_nothing_to_colour",
    "C39_shape_colour",
    "C39_text_colour_refuted",
    "C39_untouched_trip_refuted",
    "C39_same_edge_refuted",
    "C39_fare_rules_refuted"
   ],
   "note": "Routes, trips, ids, fare rules after colouring, for all iteration orders and distributions over workers; choice of the colour of a shape. Refuted: text colours survive without --write-colors; trips without a new shape keep the colour of their route (single-stop trips); the chosen colour covers 90 percent of the drawn shape (stops on the same edge)."
  },
  {
   "property": "C40",
   "status": "proved",
   "theorems": [
    "C40_round_trip",
    "C40_each_shape",
    "C40_has",
    "C40_readded_id_refuted",
    "C40_blank_id_refuted",
    "C40_no_points_refuted",
    "C40_add_after_reading_refuted"
   ],
   "note": "Byte-level model of the storage file. The conditions of the property (plain ids, at least one point, ids not re-used, no additions after reading) are shown to be needed."
  },
  {
   "property": "C41",
   "status": "proved",
   "theorems": [
    "C41_shapes_file",
    "C41_trips_and_shapes",
    "C41_empty_id_refuted",
    "C41_reissued_id_refuted",
    "C41_same_type_refuted"
   ],
   "note": "Rows written by writeShapes; composed with the shape workers of all configurations: every trip refers to the rows meant for it. Fails if the input uses ids of the form pfaedle issues (an old shape can be merged with a new one), and if three configurations are for one route type and shapes are dropped (the third issues an id of the first again)."
  },
  {
   "property": "C42",
   "status": "proved",
   "theorems": [
    "C42_stop_times",
    "C42_whole_run",
    "C42_no_shapes_file",
    "C42_long_sequence_refuted",
    "C42_unknown_trip_refuted",
    "C42_empty_trip_id_refuted"
   ],
   "note": "rows of stop_times.txt, in any order; composed with the shape workers of all configurations, with or without an input shapes.txt; boundary cases refuted"
  },
  {
   "property": "C43",
   "status": "proved",
   "theorems": [
    "C43_directory",
    "C43_each_file_whole",
    "C43_source_untouched",
    "C43_directory_done",
    "C43_writer_ends",
    "C43_archive",
    "C43_mixed_feed_refuted",
    "C43_write_error_refuted"
   ],
   "note": "directory (also in place) and archive output, every crash point and checked failure; findings: not atomic as a whole, write errors unchecked"
  },
  {
   "property": "C44",
   "status": "proved",
   "theorems": [
    "C44_normaliser_pure",
    "C44_normalised_unique",
    "C44_equal_normalisers"
   ],
   "note": "Histories of construction, copy, assignment and normalisation on any number of objects; regex engine is an oracle."
  },
  {
   "property": "C45",
   "status": "proved",
   "theorems": [
    "C45_line_similarity",
    "C45_station_similarity"
   ],
   "note": "Edit distance is an oracle (util not in the checkout)."
  },
  {
   "property": "C46",
   "status": "proved",
   "theorems": [
    "C46_classifiers_symmetric",
    "C46_equal_names_similar",
    "C46_empty_names_refuted",
    "C46_geo_decision",
    "C46_edit_decision"
   ],
   "note": "Token similarities, edit distances and the distance decay are oracles with stated contracts."
  },
  {
   "property": "C47",
   "status": "proved",
   "theorems": [
    "C47_counts",
    "C47_outcomes",
    "C47_unique_outcome",
    "C47_order",
    "C47_stats",
    "C47_median",
    "C47_hops",
    "C47_max",
    "C47_total",
    "C47_twice_refuted",
    "C47_crash_refuted",
    "C47_short_refuted"
   ],
   "note": "Geometry is a parameter. Outcomes and order independence assume that points of compared lines nearer than the tolerance are equal; counts, stats, maximum, median and average hop distance are unconditional. The equality with the number of results needs distinct trips (C47_twice_refuted). Crashes on trips with one stop or different numbers of stops (C47_crash_refuted)."
  },
  {
   "property": "C48",
   "status": "proved",
   "theorems": [
    "C48_equivalent",
    "C48_asymmetric",
    "C48_apart",
    "C48_order_refuted",
    "C48_cache_refuted"
   ],
   "note": "The unconditional strict weak order is refuted; proved on lines whose points are apart."
  },
  {
   "property": "C49",
   "status": "proved",
   "theorems": [
    "C49_keyval",
    "C49_rule",
    "C49_rule_unique",
    "C49_flags",
    "C49_norm",
    "C49_norm_quoted",
    "C49_deep",
    "C49_section",
    "C49_repeated_rule_refuted",
    "C49_turn_cost_refuted",
    "C49_overflow_refuted"
   ],
   "note": "split and trim of the util library are assumed to behave as stated; raw values are interpreted by arbitrary functions. Refuted: flags of a repeated rule, turn cost, overflow."
  },
  {
   "property": "C50",
   "status": "proved",
   "theorems": [
    "C50_compare",
    "C50_types",
    "C50_every_type",
    "C50_error",
    "C50_sect",
    "C50_ignored_refuted",
    "C50_tolerance_refuted",
    "C50_order_refuted",
    "C50_two_refuted"
   ],
   "note": "The claim that sharing sections have the same settings is refuted four ways."
  },
  {
   "property": "C51",
   "status": "proved",
   "theorems": [
    "C51_parsed",
    "C51_one_colour",
    "C51_case",
    "C51_three_bytes",
    "C51_malformed_refuted",
    "C51_line_colour",
    "C51_next_tag_refuted"
   ],
   "note": "Every string is read as exactly one value; the claim that malformed strings give no colour is refuted (they are black)."
  },
  {
   "property": "C52",
   "status": "proved",
   "theorems": [
    "C52_names",
    "C52_station",
    "C52_way_track",
    "C52_one_value",
    "C52_reading",
    "C52_normaliser_refuted"
   ],
   "note": "Names, tracks and the tags kept while reading; normalisation and XML decoding are parameters with norm(empty) = empty."
  },
  {
   "property": "C53",
   "status": "proved",
   "theorems": [
    "C53_rule",
    "C53_one",
    "C53_file"
   ],
   "note": "Per relation and for the file as a whole; way ids of members are not 0."
  },
  {
   "property": "C54",
   "status": "proved",
   "theorems": [
    "C54_found",
    "C54_region",
    "C54_bounded",
    "C54_complete",
    "C54_ends",
    "C54_order",
    "C54_order_refuted",
    "C54_sharp_refuted"
   ],
   "note": "Any graph, limits and choice of candidates; with sharp turns the search is not complete (C54_sharp_refuted), and the order of candidates with different numbers of turns is not an order (C54_order_refuted; every call allows no turn, so it is not met)."
  },
  {
   "property": "C55",
   "status": "proved",
   "theorems": [
    "C55_clusters",
    "C55_only_selected_trips_change",
    "C55_own_headsign_refuted"
   ],
   "note": "Selection, clustering and the effect on the feed, for every schedule. Refuted: a trip is not always matched against its own headsign, only against that of the first trip of its cluster."
  },
  {
   "property": "C56",
   "status": "proved",
   "theorems": [
    "C56_warm_cache_read_only",
    "C56_warm_after_clustering"
   ],
   "note": "After clustering, attribute lookups of trips to be routed and normalisation of stop names of the feed leave all tables unchanged, and give the specified values."
  },
  {
   "property": "C57",
   "status": "proved",
   "theorems": [
    "C57_continuous",
    "C57_routed_shape",
    "C57_backwards_refuted"
   ],
   "note": "Geometry library (segment, simplify) by contract. Hops that drive a single edge backwards (only possible for the fallback transitions) are excluded by the hypothesis forward; C57_backwards_refuted shows the discontinuity for them if the segment function orders its bounds."
  },
  {
   "property": "C58",
   "status": "proved",
   "theorems": [
    "C58_feed_to_shapes",
    "C58_ends"
   ],
   "note": "Composition of the models of clustering, candidate search, routing, drawing and the shape workers. Routing, geometry and cost primitives are parameters with the contract world_ok. A trip's shape parts are shown to follow the hops and to join if no hop goes back on its own edge (see C57)."
  },
  {
   "property": "C59",
   "status": "proved",
   "theorems": [
    "C59_kept",
    "C59_station",
    "C59_edge",
    "C59_equivalent",
    "C59_turning_circle_refuted",
    "C59_position_refuted"
   ],
   "note": "Any network with at most one edge per pair of nodes, any order; findings: a turning circle that becomes a station loses its state; later candidate edges use the already moved position."
  },
  {
   "property": "C60",
   "status": "proved",
   "theorems": [
    "C60_lines",
    "C60_shared",
    "C60_reading",
    "C60_colour_refuted"
   ],
   "note": "All ways of a file in order; NO_COLOR is a constant of cppgtfs assumed above 0xFFFFFF."
  },
  {
   "property": "C61",
   "status": "proved",
   "theorems": [
    "C61_segments",
    "C61_point",
    "C61_total",
    "C61_empty_refuted"
   ],
   "note": "Linear interpolation; PolyLine::getSegment is a parameter."
  },
  {
   "property": "C62",
   "status": "proved",
   "theorems": [
    "C62_fastest",
    "C62_bound",
    "C62_tight"
   ],
   "note": "Over rational numbers."
  },
  {
   "property": "C63",
   "status": "proved",
   "theorems": [
    "C63_boxes",
    "C63_hops",
    "C63_covered",
    "C63_ends",
    "C63_matched",
    "C63_extract",
    "C63_only",
    "C63_extract_all_refuted",
    "C63_backwards_refuted"
   ],
   "note": "Points that the index adds by merging boxes need not be in an extract (C63_extract_all_refuted)."
  },
  {
   "property": "C64",
   "status": "proved",
   "theorems": [
    "C64_codes",
    "C64_written",
    "C64_success",
    "C64_outputs",
    "C64_modes",
    "C64_single",
    "C64_failure",
    "C64_single_unmatched_refuted",
    "C64_rules_refuted",
    "C64_extract_osm_refuted"
   ],
   "note": "-T with a trip of a type without configuration writes the unchanged feed and no path (C64_single_unmatched_refuted)."
  },
  {
   "property": "C65",
   "status": "proved",
   "theorems": [
    "C65_results",
    "C65_exit",
    "C65_ends",
    "C65_no_race",
    "C65_unique",
    "C65_weights",
    "C65_no_threads_refuted",
    "C65_single_stop_refuted"
   ],
   "note": "Threads as interleavings of counter accesses and trips; collectors abstract (see C47). Refuted: with hardware_concurrency() = 0 nothing is evaluated; with --unique all single-stop trips of a route are one group."
  },
  {
   "property": "C66",
   "status": "proved",
   "theorems": [
    "C66_args",
    "C66_result",
    "C66_deterministic",
    "C66_ends",
    "C66_average",
    "C66_average_none_refuted",
    "C66_reports_refuted",
    "C66_segment_refuted"
   ],
   "note": "Refuted: the average without feeds, the report streams with two or more feeds (dangling pointers), and naming the documented default segment length."
  },
  {
   "property": "C67",
   "status": "proved",
   "theorems": [
    "C67_reads",
    "C67_config",
    "C67_exit",
    "C67_unambiguous",
    "C67_spelling",
    "C67_feeds_anywhere",
    "C67_independent",
    "C67_config_files",
    "C67_drop_shapes_refuted",
    "C67_keep_fields_refuted"
   ],
   "note": "getopt_long is modelled as documented (its code is not in the repository). The refuted theorems record that --drop-shapes takes a value although the help shows none, and that -F takes none although the help shows one."
  },
  {
   "property": "C68",
   "status": "proved",
   "theorems": [
    "C68_document",
    "C68_answer",
    "C68_only",
    "C68_sufficient",
    "C68_feeds",
    "C68_no_feeds",
    "C68_lists_refuted",
    "C68_border_refuted",
    "C68_flags_refuted"
   ],
   "note": "The statement without the side conditions is refuted for lists of values, for points at the border (six digits are printed) and for configurations that disagree on flags."
  },
  {
   "property": "C69",
   "status": "proved",
   "theorems": [
    "C69_selected",
    "C69_sufficient",
    "C69_tags",
    "C69_lists_refuted"
   ],
   "note": "Refuted for rules that match lists of values."
  },
  {
   "property": "C70",
   "status": "proved",
   "theorems": [
    "C70_penalty",
    "C70_never_negative",
    "C70_exp_order",
    "C70_best",
    "C70_inverse",
    "C70_method",
    "C70_limit",
    "C70_generous",
    "C70_move",
    "C70_total",
    "C70_optimal",
    "C70_limit_refuted",
    "C70_inverse_refuted",
    "C70_timenorm_refuted"
   ],
   "note": "Exact rationals instead of doubles. Refuted: the limit is undefined if no candidate of a stop has an edge or the punishments are large; the conversion back is undefined for the penalty factor 0; timenorm with a factor does not prefer the scheduled time."
  },
  {
   "property": "C71",
   "status": "proved",
   "theorems": [
    "C71_graph",
    "C71_finishes",
    "C71_complete",
    "C71_attributes",
    "C71_independent",
    "C71_num_trips_refuted",
    "C71_opposite_refuted",
    "C71_loop_refuted"
   ],
   "note": "Refuted: num_trips counts a trip twice on the edge of an intermediate stop; of two opposite mapped edges only one is shown; the node of a loop edge can be shown twice."
  },
  {
   "property": "C72",
   "status": "proved",
   "theorems": [
    "C72_network",
    "C72_forward",
    "C72_areas",
    "C72_forward_refuted"
   ],
   "note": "Composition of the passes of OsmBuilder::read after snapping. C72_forward needs that two OSM edges between the same nodes in opposite orientations do not contradict each other; C72_forward_refuted shows that it is false otherwise."
  },
  {
   "property": "C73",
   "status": "proved",
   "theorems": [
    "C73_path",
    "C73_short_trips_refuted",
    "C73_agrees"
   ],
   "note": "agreement for a run whose only selected trip this is, without hop cache (the shape of a trip depends on the trips it shares a trie with)"
  },
  {
   "property": "C74",
   "status": "proved",
   "theorems": [
    "C74_admissible"
   ],
   "note": "Composition of the network (C72) with the cost function (C23) and the heuristic (C24), with the float rounding of the recorded speed; paths cheaper than the limit B (19 days for binary32)."
  },
  {
   "property": "C75",
   "status": "proved",
   "theorems": [
    "C75_label",
    "C75_trgraph_files",
    "C75_graph_file",
    "C75_networks_kept_refuted",
    "C75_same_label_refuted"
   ],
   "note": "Names of the output graphs; the library's names of types are a parameter with the stated conditions. That every network is output with --write-graph is refuted."
  },
  {
   "property": "C76",
   "status": "proved",
   "theorems": [
    "C76_network"
   ],
   "note": "Composition of reading (C09, C10, C53), gap closing, snapping (C59) and finishing (C72) for one file; the records file_read, carries, finished and areas say what each edge and node is. The restriction table is C77."
  },
  {
   "property": "C77",
   "status": "proved",
   "theorems": [
    "C77_turns",
    "C77_gap_refuted"
   ],
   "note": "for nodes at which each way has one edge and streets not moved by gap closing; the loss of restrictions at closed gaps is shown by C77_gap_refuted"
  },
  {
   "property": "C78",
   "status": "proved",
   "theorems": [
    "C78_file_and_feed_to_shapes",
    "C78_shapes_follow_streets"
   ],
   "note": "composition of C76 and C58; the search of the util library is assumed to yield paths of the network; one-way loops collapsed from several edges are assumed to lead back to their node (see C72)"
  },
  {
   "property": "C79",
   "status": "proved",
   "theorems": [
    "C79_feed_to_files",
    "C79_no_shapes_file",
    "C79_with_more_known",
    "C79_ends"
   ],
   "note": "composition of C58 for every configuration with C41 and C42, with or without an input shapes.txt; the configurations must be for different route types, and ids of the input not of the form of new ones (otherwise refuted, C41)"
  },
  {
   "property": "C80",
   "status": "proved",
   "theorems": [
    "C80_distance",
    "C80_nearer_not_dearer",
    "C80_default_counts_distance_refuted"
   ],
   "note": "Composition of the configuration reader (C49) with the candidates of a stop (C34). Finding: without routing_station_move_penalty_fac the factor is 0, so a distance costs nothing."
  },
  {
   "property": "C81",
   "status": "proved",
   "theorems": [
    "C81_cheapest_way",
    "C81_trips_take_cheapest_ways",
    "C81_fast_engine_refuted"
   ],
   "note": "1 -> n engine, with or without cache; assumes the Dijkstra searches find cheapest walks below their limit (problem_ok) and costs below 32 bits. Default n -> n engine: refuted by witness."
  },
  {
   "property": "C82",
   "status": "proved",
   "theorems": [
    "C82_costs_of_the_program",
    "C82_network_fits_the_router",
    "C82_cheapest_on_the_network",
    "C82_searches_exist"
   ],
   "note": "1->n engine; the searches of the util submodule are assumed to return cheapest walks below the limit (C82_searches_exist shows the assumption can be met on every network); 32-bit room for the limits assumed"
  },
  {
   "property": "C83",
   "status": "proved",
   "theorems": [
    "C83_default_route_is_driven"
   ],
   "note": "n->n engine, any cache; the util searches are assumed correct; 32-bit room for the limits assumed"
  },
  {
   "property": "C84",
   "status": "proved",
   "theorems": [
    "C84_shapes_take_cheapest_ways",
    "C84_shapes_are_driven"
   ],
   "note": "1->n engine: cache off, or one network for all tries and limits of at least 2 (see C29 for why). The weight of a drive does not depend on its length."
  },
  {
   "property": "C85",
   "status": "proved",
   "theorems": [
    "C85_file_and_feed_to_cheapest_ways",
    "C85_file_and_feed_to_driven_ways",
    "C85_searches_exist"
   ],
   "note": "From file and feed to shapes along cheapest (default engine: driven) ways of the built network. The searches themselves (util::EDijkstra, not in the checkout) are assumed to find cheapest walks; such searches exist (C85_searches_exist). Costs are assumed to stay within 32 bits (se_room, se_fits)."
  },
  {
   "property": "C86",
   "status": "proved",
   "theorems": [
    "C86_edge_tracks",
    "C86_station_tracks",
    "C86_agreed",
    "C86_network",
    "C86_order_matters_refuted"
   ],
   "note": "For every order of the map; that the file alone determines the track is refuted (stations on ways with different tracks)."
  },
  {
   "property": "C87",
   "status": "proved",
   "theorems": [
    "C87_matched",
    "C87_succeeds",
    "C87_failure",
    "C87_extras",
    "C87_modes",
    "C87_single"
   ],
   "note": "Composition of the models of the command line (C67), the configuration (C49, C50) and the run (C64)."
  },
  {
   "property": "C88",
   "status": "proved",
   "theorems": [
    "C88_matched",
    "C88_totals",
    "C88_graphs",
    "C88_nodes_refuted"
   ],
   "note": "Nodes and entries under told_apart (no two configurations used for the same types); refuted without it."
  },
  {
   "property": "C89",
   "status": "proved",
   "theorems": [
    "C89_feed_on_disk",
    "C89_archive",
    "C89_run_on_disk",
    "C89_run_no_shapes",
    "C89_run_archive",
    "C89_succeeds"
   ],
   "note": "The CSV format and the fields pfaedle does not touch are abstract."
  }
 ]
}