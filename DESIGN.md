# Formal model of pfaedle in Rocq (Coq 8.16.1)

The model is a set of executable, total Gallina definitions, written function by
function from the C++ in /repo (each definition cites file and lines), and a set
of theorems about them.  The code itself is neither built nor run.

## Layout

For each area `X` there are up to four files in `rocq/theories/`:

* `X_model.v`  – the model of the code (definitions only, with citations; the header lists the simplifications);
* `X_spec.v`   – a small independent specification in which the properties are stated;
* `X_proofs.v` – lemmas and proofs;
* `X_props.v`  – the property theorems, each followed by `Print Assumptions` and
  accompanied by `Example`s showing that its hypotheses are met by a concrete non-trivial case.

`ListAux.v` and `StrAux.v` hold facts about lists and strings.

Naming: theorem names start with the property id (`C01_...`).  `_partial` marks
theorems that prove only part of the property, `_refuted` marks theorems that
show with a witness that an expectation is false of the code (a finding).

`properties.jsonl` has the properties in English, `MANIFEST.json` the theorems of each,
`seeded/LOG.jsonl` the wrong programs the theorems were tried on.

## Modelling conventions

* C++ `size_t`/`uint64_t` indices and sizes: `nat`/`N`/`Z` unbounded, unless overflow
  matters; then the wrap (`mod 2^32`, `mod 2^16`, `mod 256`) or the undefined conversion is explicit.
* Undefined behaviour / exceptions are distinct outcomes (`option`/`res`), never a default value.
* Doubles: exact rationals or, where rounding matters (measures of shapes, snapping, component
  speeds), values with an arbitrary rounding function that has the stated laws (monotone, idempotent).
  Costs of routing are an abstract type with the stated laws.
* Unordered containers and containers ordered by address: association lists; theorems quantify over every order
  (every permutation, or an order oracle).
* Pointers: natural-number identities.
* External code that is not in the repository (the submodules util, cppgtfs,
  configparser, pfxml are empty in this checkout; also regex, libzip, the OS) is
  an oracle: a Section variable, generalised in the theorem, whose assumed
  behaviour is a visible hypothesis.
* Threads: small-step interleaving semantics over shared state; theorems quantify
  over all schedules.
* Crashes: the sequence of file-system operations is a list, theorems quantify
  over all prefixes.
* Loops without an obvious bound take fuel; it is shown that the fuel suffices.

## Properties: what is modelled and how it is proved

| id | group | model | proof |
|----|-------|-------|-------|
| C01-C03 | IdSet | OsmIdSet: history of add/nadd, block buffer, block-end table, bloom filters, external merge sort, block cache, binary search | invariant over histories; sortedness/permutation of the merge; binary search correctness; induction over query sequences; witness: hash collision |
| C04-C05 | BBoxIdx | tree of boxes for any padding and any common-area function | induction over the add history: below the first level the tree is a chain of equal boxes, so nothing is missed; witness: false positives |
| C06-C08 | OsmFilter | filters, flags, levels, needed keys, merging of filters | set-level characterisation, permutation invariance; witnesses: substring match, level 7, flag clash |
| C09, C10, C11, C53 | OsmRead | token stream passes of OsmBuilder (nodes, ways, relations, restrictions), readEdges, filterWrite | induction over the entity list; refinement of the token automaton to a list of entities |
| C12-C13 | Restrictor | rule tables, add/relax/may, replaceEdge, duplicateEdge | invariant linking the tables to the call history; witnesses |
| C14-C17 | OsmGraph | writeGeoms, edgesSim, mergeEdgePL, collapseEdges, simplifyGeoms, deleteOrphNds, writeODirEdgs, writeSelfEdgs, writeComps | simulation: every step replaces a chain by an equivalent edge; reachability; search invariant for components |
| C18, C23, C24 | Weights | costToInt, cost passes, CostFunc, DistHeur | arithmetic; memo transparency; triangle inequality along paths |
| C19 | Gaps | fixGaps | invariant over the pass, case analysis over directions |
| C20-C21 | Payload | EdgePL heap with reference counts, NodePL sentinels | ownership-counting invariant over histories; refinement to an abstract map |
| C22 | HopCache | addNonOverflow, HopCache | arithmetic, refinement to a map |
| C25-C27 | Router | Router::route: dynamic program over the trie | induction over the trie (parent < child), exchange argument for optimality |
| C28-C29 | Hops | Router::hops, hopsFast with the cache | 32-bit arithmetic with explicit wrap; contract of the search |
| C30, C44-C46, C56 | Simi | RoutingAttrs, line and station similarity, Normalizer, classifiers | order axioms; sorted-set union; memo refinement; symmetry |
| C31-C33 | TripTrie | insertion of trips | invariant over insert histories |
| C34 | Ecm | getEdgCands, deg2reachable, getECM, timePen, timeExpand | list lemmas, composed with Router and Hops |
| C35, C57 | Shapes | getGtfsShape, getGeom, getLine, getMeasure, getColorMatch | induction over hops with arbitrary rounding |
| C36-C38 | Workers | shape workers, getFreeShapeId, use counts, ShapeContainer has/add/remove | invariant over all interleavings; injectivity of decimal rendering |
| C38, C55 | Cluster | clusterTrips, buildCandCache, worker distribution | partition lemma, round robin, schedule independence |
| C39 | Colours | colours of routes | map lemmas for all iteration orders |
| C40 | ShapeStore | ShapeContainer byte stream, writeShapes | encode/decode round trip on bytes |
| C41 | ShapesFile | all configurations' workers on one container, then shapes.txt | composition of Workers and ShapeStore |
| C42 | StopTimesFile | writeStopTimes after a whole run | refinement to a map over rows |
| C43 | Writing | Writer file operations | invariant over all prefixes of the steps |
| C47, C48, C61 | Collect | shapevl Collector: lineCmp, caches, add, segmentize, statistics | invariants over histories; order axioms; witnesses |
| C49, C50, C62 | Config | MotConfigReader: rules, every option of a section, comparison and merging of configurations, greatest speed | string lemmas; inversion of the reader; invariant over the sections |
| C51, C52, C60 | Attrs | getAttr*, getStatInfo, getLines, parseHexColor, getKeptAttrKeys | relational specification with uniqueness |
| C54, C59 | Snap | depthSearch, snapStation, snapStats | search invariants; network equivalence |
| C58 | Pipeline | clusters -> trie -> candidates -> routing -> shapes -> feed | composition |
| C63 | Box | getGtfsBox, areas of configurations and extracts, greatest speed | invariant over the stops; composition with BBoxIdx and Cluster |
| C64 | Main | main: modes, checks, loop over configurations, writing; world of files as a record | invariant over the configurations, case analysis; ordered list of conditions |
| C65, C66 | Shapevl | shapevl's main and eval: arguments, choice of trips (TripTrie), counter and threads, results | invariant over interleavings, termination measure, trie histories; grammar of the arguments |
| C67 | Args | ConfigReader: getopt_long as documented, the options, implied settings; getCfgPaths | grammar of the command line as small steps; generic folds over the list of values |
| C68, C69 | Query | overpassQryWrite as calls to the XML writer, osmfilterRuleWrite as lines | stack machine for the document, meaning of the statements on OSM data; composition with OsmFilter and BBoxIdx |
| C70 | Trans | The three transition penalties, the conversion back and the limit of the first search as functions on rationals with infinity; the specification is a relation between the quantities of the way (seconds, metres) and the penalty, shown to be functional; the limit is characterised by 'three times the hop time with all punishments, rounded up'. The penalties satisfy the cost laws of C25, so the optimality theorem is instantiated with them. |
| C71 | NetGraph | Threads with their own edge maps and the shared counter as an interleaving, the merge and the construction of the graph with every iteration order; the specification counts, per trip and mapped edge, how often the matched hops go along it. Invariant: a map is described by the multiset of the insertions made into it. |
| C72 | Finish | The passes of `OsmBuilder::read` after snapping, composed in program order from the models of C14-C18, for every node order. The specification relates the final network to the graph before: chains of OSM edges, their lines and costs, forward reachability, components and speeds. Proved by composing C14-C18 with new invariants of collapsing (connectedness, no new opposite pairs) and of the self-edges without side conditions. |
| C73 | Single: shapeL and shapeify of a trip (ShapeBuilder.cpp:314-334, 366-378) on top of Pipeline's world; the trie of one trip, routed without hop cache. | `C73_path` from C34 (hops), C13-C16 (lines) for a one-call history; `C73_agrees`: the forest of a run whose only selected trip this is consists of the same trie, so the stored shape has the points drawn; `C73_short_trips_refuted`. |
| C74 | Astar | Composition of C17, C18, C23, C24 and C72, no new code: the heuristic of the search on `net r`, with the recorded speed of the start edge's area, is at most the cost of every path to a target. The real-valued bound is proved along the path (each step: cost of the chain behind the edge, lower bound from C18's and C23's specifications, speed from `areas`) and rounded once at the end, so that the loss by rounding the recorded speed to float (`eps`, 2^-24) only matters for paths above 16777215 tenths of a second. Saturated 32-bit costs are handled by the limit `B` as well. Hypotheses on the geometry: triangle inequality, a line is no shorter than the distance of its ends. |
| C75 | Labels | getFileNameMotStr and the files written by the loop over the configurations; the library's type names are parameters | invariant of the greedy decomposition; strings without the separator are determined by the joined string; order of the writes |
| C76 | Build | The parts of OsmBuilder::read (reading, fixGaps, snapStats, the finishing passes) are put together with conversions between their graph representations. Proved by composition: each part's result is shown to meet the next part's preconditions, and an invariant over snapping steps (edge ids, pieces) and over gap steps carries the payload of the read edges to the end. |
| C77 | Turns | No new model: composition of Build, Finish, Snap, Restrictor and OsmRead. The table after snapping is the table after reading with each edge number replaced by its heir at the node (the piece at that node), which is injective; the doubling copies the rules of an edge to its opposite; edges without mark are not mentioned. Proved for nodes at which each way has one edge and for streets not moved by gap closing; the latter cannot be dropped (C77_gap_refuted). |
| C78 | Whole | No new model: C76 (file to network) composed with C58 (feed to shapes). `shows b W`: the graph the pipeline works on is the network that was built (edges by number), and a successful search yields a drive from edge to edge; the search itself is part of the util library, which is not in the checkout. From this the assumptions of C58 about geometries and paths follow (C72's `fi_fits`); the edges of the hops come from searches (`searched`, new in C58's `shape_by`), so they are edges of the network, and through `traced`, `carries` and `GraphOf` pieces of wanted ways. Assumed: one-way loops of the network lead back to their node. |
| C79 | Output | `Output_model.v`: the loop over the configurations on one feed and one shape container: clustering, jobs of the shape workers (points encoded as bytes by any function of fixed widths), the workers with the container, then both writers. Composition of C55/C58 (per configuration, on the feed with the shapes the trips have by then), C37 and C41/C42: by induction over the configurations the run is one of `runPhases` whose phases are those of the original feed; a trip shaped by an earlier configuration has a type the later ones are not for. `C79_ends`: fair schedules exist; outcomes are files or a shape with 2^64 points. |
| C80 | Emission: emWeight (ShapeBuilder.cpp:1263-1274) and getEdgCands with the options of a section read by Config's readSec. | `C80_nearer_not_dearer` from C49 (settings are not negative) and C34 (penalties of candidates), monotonicity of emWeight; `C80_default_counts_distance_refuted`. |
| C81 | No new model: Router (C25), the 1 -> n hop engine (C28) and the candidates (C34) together; Optimal_spec states ways and drives on the network alone. | `C81_cheapest_way` by showing that the moves of the router's log are the drives below the last limit (C28 for every answer, cache valid by C29's invariant), `C81_trips_take_cheapest_ways` by C34; `C81_fast_engine_refuted`. |
| C82 | `netStep`, `netCost`, `edgeComp`: the finished network (C72) seen through the cost function object (C23) with any call history; RealNet_spec states the costs of a network by `transition_cost`. | `C82_costs_of_the_program` from C23's purity; `C82_network_fits_the_router` from the areas of C72 and monotonicity of the transition cost; `C82_cheapest_on_the_network` by C81; `C82_searches_exist` by a reference search over simple walks (loops do not pay). |
| C83 | No new model: Router (C25), the n -> n hop engine (C28) and the candidates (C34) together, in the words of Optimal_spec. | `C83_default_route_is_driven`: the answers of the engine are hops with their cost (C28_fast_hops_sound), so the sequence chosen by the router is a way of the network; optimality is refuted (C81). |
| C84 | No new model: Pipeline (C58) with Optimal (C81) and Default (C83). | `C84_shapes_take_cheapest_ways`, `C84_shapes_are_driven`: the lemmas of C58 are proved for any fact known of the hops of a trie and any invariant of the hop cache; the invariant used is that cached costs are those of cheapest walks, kept from trie to trie of a forest. |
| C85 | No new model: the network of Build (C76), the costs of Weights and RealNet (C82) and the pipeline of C84 together, in the words of Whole_spec, RealNet_spec and Feedway_spec. | `C85_file_and_feed_to_cheapest_ways`, `C85_file_and_feed_to_driven_ways`: the finished network with the costs of the program meets what C84 assumes of the network and the world; drives follow its edges because walks do, and start on them because candidates are edges of the network. `C85_searches_exist`: searches as assumed exist on every network. |
| C86 | Tracks: `readTracks` (693-735 with 700-702, 727), `writeEdgeTracks` (1729-1740) and `build`, the reading of a file with both; the map of tracks is gone through in any order. The track of a way is an oracle (getAttrByFirstMatch is in Attrs, C51). | `C86_edge_tracks`: the map has, for each edge, the track of the last way with one along it. `C86_station_tracks`, `C86_agreed`: what stations get, for every order. `C86_network`: the network of C76, whose stations have these tracks. `C86_order_matters_refuted`: a station on two tracks gets one or the other depending on the order. |
| C87 | Launch: `launch` puts Args, Config and Main together (PfaedleMain.cpp:100-127, 173-176, 294-335); configparser is an oracle that gives the sections of the configuration files. | `C87_matched`: what a successful matching run wrote, in terms of the arguments, section names and trips. `C87_succeeds`: when it succeeds. `C87_failure`: other exit codes. `C87_extras`, `C87_modes`, `C87_single`: graphs and statistics, -X, --overpass, --osmfilter, -T. By C67, C50 and C64; the types of the configurations are exactly those that sections name. |
| C88 | Stats: `statistics`, `shapeifyStats` (PfaedleMain.cpp:251-292, 355, 388-431, Stats.h, ShapeBuilder.cpp:382-483); the graph, the hop distances and the effort of each configuration are arbitrary. | `C88_matched` on top of `clustered` (C55). `C88_totals`, `C88_graphs` by induction over the configurations, with the labels of C75. `C88_nodes_refuted`. |
| C89 | FeedFiles: the functions of gtfs/Writer.cpp that write one file (383-658), as the `render` of Writing; lines are records, the CSV format is not modelled. | `C89_feed_on_disk` instantiates `C43_directory_done`, `C89_archive` `C43_archive`. `C89_run_on_disk`, `C89_run_no_shapes` and `C89_run_archive` join them with C79. `C89_succeeds` with `C43_writer_ends`. |

C29 is partial: for the n->n engine (`hopsFast`) only soundness of cached answers within the limit is
proved (`C29_fast_cache_partial`); the full statement is refuted (`C29_fast_cache_refuted`).

## Trusted base

* Coq 8.16.1's kernel (and `vm_compute`, used in examples and witnesses; part of the kernel).
* `Print Assumptions` of every property theorem says "Closed under the global context": no axiom,
  neither own nor of the library, is used.  (coqchk's list for the whole build names the parameters of the
  module type `Coq.ssr.ssrunder.Under_rel` of the standard library, which no theorem uses.)
* The reading of the C++ text: that each definition says what the cited lines do.  This is not checked by a machine.
* The oracles listed in the header of each model file, and the contracts assumed of them, which are
  hypotheses of the theorems.

### Modelled

`osm/OsmIdSet`, `osm/BBoxIdx`, `osm/OsmFilter` (all of its tests), `osm/Restrictor`, `osm/OsmBuilder`
(reading, filtering, graph passes, snapping, attributes, colours, the Overpass query, the osmfilter rules), `trgraph/EdgePL`, `trgraph/NodePL`, `trgraph/Normalizer`,
`trgraph/StatInfo`, `router/Router.tpp`, `router/HopCache`, `router/Weights`, `router/Comp.h`, `router/RoutingAttrs.h`,
`router/TripTrie`, `router/ShapeBuilder` (candidates, clustering, workers, shapes, colours, transit graph), `router/Misc.h`
(comparison of options), `gtfs/ShapeContainer`, `gtfs/Writer` (order of file operations, shapes.txt, stop_times.txt),
`config/MotConfigReader`, `config/ConfigReader` (with getopt_long as documented), `PfaedleMain.cpp` (main, getCfgPaths), `statsimi-classifier`, `shapevl/Collector`, `shapevl/ShapevlMain.cpp`.

### Not modelled

* The submodules (util with graphs, Dijkstra, geometry, strings; cppgtfs; configparser; pfxml), regular
  expressions, libzip, the operating system: oracles.
* Rounding of doubles except where named above; NaN except where named.
* Log and debug output, GeoJSON output (the construction of the transit graph is modelled, its printing is not; `GtfsTransEdg`), `--write-graph`, `--write-cgraph`.
* `gtfs/Writer`: the columns of files other than shapes.txt, stop_times.txt and the ids in trips.txt, and the CSV format (in FeedFiles a line is a record; cppgtfs is assumed to
  write a record as it was parsed, and to throw if a required file is missing).
* I/O errors in OsmIdSet and the shape container; loss of data on a crash of the machine.
* Memory consumption and running time.

## Findings

Each is a `_refuted` theorem, unless a place in the code is cited instead.

* Id set: an id never mentioned may be reported as contained (hash collision), `C02_exact_for_all_refuted`.
* Boxes: points outside all boxes are reported when boxes overlap, `C05_exact_refuted`.
* Filters: keys of level 7 are not kept while reading, flags depend on the tag order, substrings match, merged filters
  take the first flags: `C06_level7_refuted`, `C06_flags_order_refuted`, `C07_substring_refuted`, `C07_spaces_refuted`, `C08_flags_refuted`.
* Reading: the first relation is skipped without ways (`C09_no_ways_refuted`) or when the last way is written
  (`C11_first_relation_refuted`); no-hop nodes outside the box have no position (`C10_outside_refuted`); a later way
  changes the direction of a shared edge (`C10_direction_refuted`); node members missing from the file are written (`C11_member_refuted`).
* Restrictions: lost for a way with two edges at the node or onto itself, `C12_two_edges_refuted`, `C12_same_way_refuted`.
* Graph: `C14_loop_refuted`, `C15_codes_refuted`, `C16_self_edges_refuted`, `C19_flip_refuted`, `C19_station_refuted`, `C18_saturation_kept_refuted`, `C18_saturation_defined_refuted` (OsmBuilder.cpp:1875 converts before 1876 checks).
* Payloads: `C20_assignment_refuted` (unused), `C21_bound_refuted`.
* Costs: a name factor of 1 disables the other factors, `C23_origin_factor_applies_refuted`.
* Routing: `C25_fallback_penalty_refuted`, `C27_unreachable_uses_fallback_refuted`, `C27_single_stop_trip_refuted`,
  `C28_wraps_refuted`, `C28_fast_same_edge_refuted`, `C28_fast_limit_wraps_refuted`, `C29_limit_one_refuted`, `C29_shared_cache_refuted`
  (not reached by the program, see `C29_one_cost_structure`), `C29_fast_cache_refuted`, `C30_stale_similarity_refuted`,
  `C31_single_stop_at_root_refuted`, `C32_missing_time_is_elapsed_refuted`, `C34_negative_times_refuted`, `C34_own_platform_preferred_refuted`, `C34_snapping_order_refuted`.
* Shapes: `C36_reissued_id_refuted`, `C41_reissued_id_refuted`, `C41_empty_id_refuted`, `C41_same_type_refuted` (three configurations for one route type: the third issues an id of the first again, and the trip gets the points of both), `C37_double_remove_refuted`, `C37_unused_shape_survives_refuted`,
  `C38_no_threads_refuted`, `C40_*_refuted`, `C57_backwards_refuted`.
* Colours: `C39_text_colour_refuted`, `C39_untouched_trip_refuted`, `C39_same_edge_refuted`, `C39_fare_rules_refuted`, `C51_malformed_refuted`, `C51_next_tag_refuted`, `C60_colour_refuted`.
* Writing: `C42_long_sequence_refuted`, `C42_unknown_trip_refuted`, `C42_empty_trip_id_refuted`, `C43_mixed_feed_refuted`, `C43_write_error_refuted`.
* Names: `C46_empty_names_refuted`, `C52_normaliser_refuted`, `C55_own_headsign_refuted`.
* Snapping: `C54_order_refuted`, `C54_sharp_refuted`, `C59_turning_circle_refuted`, `C59_position_refuted`.
* shapevl: `C47_twice_refuted`, `C47_crash_refuted`, `C47_short_refuted`, `C48_order_refuted`, `C48_cache_refuted`, `C61_empty_refuted`.
* Configuration: `C49_repeated_rule_refuted`, `C49_turn_cost_refuted` (restricted turns cost ten times the entry cost), `C49_overflow_refuted`,
  `C50_ignored_refuted`, `C50_tolerance_refuted`, `C50_order_refuted`, `C50_two_refuted`.
* Area: `C63_extract_all_refuted` (points added by merging boxes may be missing in an extract), `C63_backwards_refuted`.
* Runs: `C64_single_unmatched_refuted`, `C64_rules_refuted`, `C64_extract_osm_refuted`.
* shapevl's main: `C65_no_threads_refuted` (hardware_concurrency() = 0), `C65_single_stop_refuted` (--unique merges all single-stop trips of a route), `C66_average_none_refuted`, `C66_reports_refuted` (-f with two or more feeds leaves dangling stream pointers; capacities as in libstdc++), `C66_segment_refuted` (--segment-length is not divided by M_PER_DEG as the default is). The weights of the groups are only written to the report, not used in the statistics.
* Command line: `C67_drop_shapes_refuted` (--drop-shapes takes the next argument although the help text shows none), `C67_keep_fields_refuted` (the argument the help text shows for -F becomes a feed).
* Queries: `C68_lists_refuted`, `C69_lists_refuted` (values in lists are not asked for), `C68_border_refuted` (six digits are printed), `C68_flags_refuted`.
* Transition penalties: if no candidate of a stop has an edge (a stop away from the network), the
  greatest speed is 0, the hop time infinite, and the limit is the conversion of infinity to `uint32_t`,
  which is undefined; the same holds for large punishment factors (`C70_limit_refuted`). With the
  penalty factor 0, the fast search divides by it (`C70_inverse_refuted`). `timenorm` adds the `exp`
  penalty, so with a positive factor a way quicker than scheduled is preferred to the scheduled one
  (`C70_timenorm_refuted`).
- C88: `graphDimensions[filePost].first` is assigned and `.second` is added to (PfaedleMain.cpp:288-292). If two configurations are used for the same types (for example sections `[tram]` and `[tram, 900]` with `-m 0`) they share a `graph_dimension` entry in stats.json with the nodes of the last graph and the edges of both, and num_nodes_tot is too small (`C88_nodes_refuted`). gtfs_avg_hop_dist is 0/0 if no configuration has a hop.
- C86: a station node where ways with different tracks meet gets the track of the edge that comes first in a hash map whose keys are addresses (OsmReadOpts.h:39, OsmBuilder.cpp:1729-1740), so it may differ from run to run (`C86_order_matters_refuted`).
* Default hop engine (C81): with the n -> n engine, which is used unless --no-fast-hops is given, the
  route is not always a cheapest one: the engine keeps one source per target edge, and if that
  source lies on the target's own edge behind the target position the drive from every other
  source is lost.  The router then gives up driving although the network has a drive below the
  first limit (`C81_fast_engine_refuted`).
- `C80_default_counts_distance_refuted`: the "default" of the factor for a stop's distance (MotConfigReader.cpp:505-509, 514-516) is 0 times a constant, so a section without `routing_station_move_penalty_fac` makes distances free; with the other defaults every candidate in reach costs nothing.
* Turn restrictions and gaps (C77_gap_refuted): OsmBuilder::fixGaps replaces an edge at a gap by a new one without telling the
  restrictor (OsmBuilder.cpp:1138-1153), so the turn restrictions of that edge are lost; in the code its address may moreover be
  reused by a later edge, which then inherits them.
- Build (C76): gap closing is the only place where edges of the network connect nodes that no way of the file connects; the reading of a file as a whole cannot fail.
* --write-graph: every configuration writes its network to the same graph.json, so only that of the last configuration used is left (C75_networks_kept_refuted). The names of the trgraph files are only distinct if the library's name of a single type is not the name of a family of types (C75_same_label_refuted).
* Single trip: with `-T` a trip with fewer than two stops is not rejected (the full run skips such trips): without stops `front()` of an empty vector is read, with one stop the predecessor table of the root node (empty) is read (`C73_short_trips_refuted`).
* Finished network: if OSM has two edges between the same nodes in opposite orientations, one of them one-way against
  its orientation, the other two-way, the direction allowed by the two-way street is penalised as wrong, `C72_forward_refuted`.
* Transit graph: `num_trips` counts a trip twice on the edge an intermediate stop lies on, since that edge ends one
  hop and starts the next (`C71_num_trips_refuted`). The graph is undirected and keeps one edge between two nodes, so of
  two mapped edges in opposite directions (a dual carriageway) one is lost with its trips (`C71_opposite_refuted`). For a
  loop edge (the dummy edges at termini) whose node is not yet known, the node is added twice (`C71_loop_refuted`).
