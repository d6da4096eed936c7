{"id": "C01", "title": "OSM id set never loses an added id", "statement": "After any sequence of add(id) and nadd(id) calls on a fresh id set, has(id) returns true for every id that was added, however many queries are made before it and in whatever order, and whether or not the ids were added in ascending order.", "quantifier": "every finite history of add/nadd calls over all 64-bit ids, every sequence of has queries after it, every pair of hash functions, every block size >= 1 id", "why_tests_cant": "The failure modes (block boundaries, ids equal to a block end, a cached block, the external merge sort refilling its part buffers) depend on the number and order of ids; tests only sample a few sizes far below or at the 64k-id block size.", "anchors": ["src/pfaedle/osm/OsmIdSet.cpp: OsmIdSet::add, nadd, diskAdd, has, diskHas, getBlock, close, sort", "src/pfaedle/osm/OsmIdSet.h: BUFFER_S, SORT_BUFFER_S"]}
{"id": "C02", "title": "OSM id set answers exactly for every id it was told about", "statement": "If nadd was never called, has(id) is true iff id was added. If nadd was called, has(id) is exact for every id that was passed to add or to nadd. (Full statement 'has is exact for every id' does not hold: an id never mentioned can be a false positive; add or nadd after the first query is rejected.)", "quantifier": "every add/nadd history, every query sequence, every id, every hash functions", "why_tests_cant": "False positives depend on hash collisions between arbitrary ids; no finite sample shows their absence or delimits when they can occur.", "anchors": ["src/pfaedle/osm/OsmIdSet.cpp: OsmIdSet::has, nadd, add, diskHas"]}
{"id": "C03", "title": "Unsorted ids are stored sorted and complete", "statement": "The first query on an id set whose ids arrived out of order leaves on disk a file that is an ascending permutation (with multiplicities) of all added ids, and block-end table entries that are the last id of each full block, for every number of file parts.", "quantifier": "every list of added ids, every sort buffer size (in ids) >= 1", "why_tests_cant": "The k-way merge refills per-part buffers at positions that depend on the number of parts; wrong refill positions only show on files of many parts.", "anchors": ["src/pfaedle/osm/OsmIdSet.cpp: OsmIdSet::sort, close"]}
{"id": "C04", "title": "Bounding-box index covers what was added and nothing outside the total box", "statement": "After any sequence of add(box), the full box contains every (padded) added box, every added padded box lies inside one of the leaf boxes, and contains(p) being true implies p lies inside a leaf box, hence inside the full box; size() equals the number of adds.", "quantifier": "every sequence of boxes, every padding function that enlarges boxes, every query point", "why_tests_cant": "The tree shape depends on the whole insertion history.", "anchors": ["src/pfaedle/osm/BBoxIdx.cpp: add, addToTree, contains, treeHas, getLeafs, getFullBox", "src/pfaedle/osm/BBoxIdx.h"]}
{"id": "C05", "title": "A point inside an added bounding box is reported as contained", "statement": "contains(p) returns true for every point p inside some added (padded) box, although lookup descends only into the first child whose box contains p. If no two added boxes have an area in common, it returns true for no other points.", "quantifier": "every sequence of boxes, every point", "why_tests_cant": "Requires particular overlaps between merged boxes; sampling unlikely insertion orders does not settle it.", "anchors": ["src/pfaedle/osm/BBoxIdx.cpp: addToTree, treeHas"]}
{"id": "C06", "title": "OSM tag filters do not depend on tag order and give the best level", "statement": "Whether an entity is kept, dropped, a station, a blocker, one-way, or restricted depends only on its set of tags and the rules, not on the (unspecified) order in which tags are stored: it is true iff some tag matches a rule that is not disabled for the entity type. The level of a way is the smallest level having a matching rule, 0 if none. Two-way rules override both one-way rules; no-restriction rules override both restriction rules.", "quantifier": "every tag map and every iteration order of it, every rule set with non-zero flags", "why_tests_cant": "The container iterates in an unspecified order; a test sees one order.", "anchors": ["src/pfaedle/osm/OsmFilter.cpp: contained, keep, drop, level, oneway, onewayrev, station, blocker, turnCycle, posRestr, negRestr, nohup"]}
{"id": "C07", "title": "Multi-value tag matching accepts every listed value", "statement": "A rule flagged mult_val_match accepts a tag value whenever the rule's value is one of the entries of the semicolon-separated tag value. (The converse does not hold: the match is by substring, so 'x;foobar' matches the rule value 'foo'.)", "quantifier": "every tag value, every rule value", "why_tests_cant": "Ranges over all strings.", "anchors": ["src/pfaedle/osm/OsmFilter.cpp: OsmFilter::valMatches"]}
{"id": "C08", "title": "Merged OSM filter keeps everything any configuration keeps", "statement": "The filter used for -X/overpass/osmfilter output, obtained by merging the filters of all configurations, keeps every entity that one of the configurations keeps. (Only holds if configurations sharing a key/value rule use the same flags: the first configuration's flags win.) It never drops anything.", "quantifier": "every list of configurations, every tag map, every entity type", "why_tests_cant": "Quantifies over all combinations of rule sets.", "anchors": ["src/pfaedle/osm/OsmFilter.cpp: OsmFilter::merge", "src/pfaedle/osm/OsmBuilder.cpp: filterWrite, overpassQryWrite"]}
{"id": "C09", "title": "Reading an OSM file returns exactly the entities that pass the filter", "statement": "Calling the next-way / next-node / next-relation readers until they return an empty entity yields exactly the file's ways / nodes / relations that satisfy the keep condition, each once, in file order, with exactly the tags whose key is needed, their full node lists and roles; the reader stops at the first entity of another kind.", "quantifier": "every well-formed OSM element sequence, every filter, every id set", "why_tests_cant": "The readers are state machines over a token stream that recognise the end of an entity only when the next one starts; the first, last, empty and adjacent-kept cases combine arbitrarily.", "anchors": ["src/pfaedle/osm/OsmBuilder.cpp: nextWay, nextNode, nextRel, keepWay, keepNode, relKeep, nextWayWithId, readBBoxNds, skipUntil"]}
{"id": "C10", "title": "Way segments connect retained nodes in way order", "statement": "The edges created for a way connect exactly the pairs of nodes that are adjacent in the way after removal of nodes outside the bounding box; every such node obtains its geographic position. (The second part fails for no-hop nodes outside the bounding box and for nodes missing from the file.)", "quantifier": "every way, every node-id sets, every earlier read way", "why_tests_cant": "Depends on which nodes are inside/outside and shared with previous ways.", "anchors": ["src/pfaedle/osm/OsmBuilder.cpp: readEdges, readNodes, keepNode, readBBoxNds"]}
{"id": "C11", "title": "Filtered OSM output is closed", "statement": "Every node id referenced by a written way is written if it exists in the input, every member of a written relation is a written way, a written node or a node referenced by a written way; nodes, ways and relations are written in file order with their needed tags, no relation without members is written, and every wanted relation with a written member is written. (The last part fails for the first relation of a file whose last way is written.)", "quantifier": "every input file, every filter configuration, every bounding box", "why_tests_cant": "Referential closure must hold for all files.", "anchors": ["src/pfaedle/osm/OsmBuilder.cpp: filterWrite, readEdges, readWriteNds, readWriteWays, readWriteRels, nextWayWithId"]}
{"id": "C12", "title": "Turn restrictions do not depend on the order in which ways are read", "statement": "For any interleaving of restriction registrations and edge announcements for a set of turn restrictions, the router may take a turn iff: the incoming edge has a mandatory-turn rule at the node (the first registered one naming a read edge decides), or else no prohibition names that turn; restrictions naming a way that was never read have no effect.", "quantifier": "every sequence of add/relax calls, every queried (from, to, via)", "why_tests_cant": "Rules referring to a way read later are patched through index lists; correctness depends on the interleaving of the calls.", "anchors": ["src/pfaedle/osm/Restrictor.cpp: Restrictor::add, relax, may", "src/pfaedle/osm/OsmBuilder.cpp: processRestr"]}
{"id": "C13", "title": "Splitting or duplicating an edge keeps its turn restrictions", "statement": "After an edge is split at a station (replaceEdge) the permission of every turn at its end nodes is that of the original edge, transferred to the piece that touches the node; after adding an opposite edge (duplicateEdge) turns using the new edge in place of the old one have the same permission and turns not involving the new edge keep theirs.", "quantifier": "every restrictor state, every edge, every queried turn", "why_tests_cant": "Ranges over all rule tables.", "anchors": ["src/pfaedle/osm/Restrictor.cpp: Restrictor::replaceEdge, duplicateEdge", "src/pfaedle/osm/OsmBuilder.cpp: snapStation, writeODirEdgs"]}
{"id": "C14", "title": "Merging two edges at a degree-2 node yields one continuous, correctly oriented line", "statement": "The geometry of the merged edge runs from the far end of the first edge, through the common node, to the far end of the second edge, whichever way the two edges were oriented and whether or not they already had a geometry. (Fails for a two-edge one-way cycle between the same two nodes.)", "quantifier": "every pair of edges meeting in a node, all orientations, all geometries", "why_tests_cant": "Eight orientation/geometry cases over arbitrary polylines.", "anchors": ["src/pfaedle/osm/OsmBuilder.cpp: mergeEdgePL, collapseEdges"]}
{"id": "C15", "title": "Collapsing edges keeps one-way semantics", "statement": "If two edges are merged, driving over the merged edge in a direction is against no one-way rule iff it was so for both originals. (Fails when one is a forward and the other a reverse one-way.) Restricted edges, edges of different level and edges with different lines are never merged; nodes that are stations or turning circles are never removed.", "quantifier": "every pair of adjacent edges with every combination of flags", "why_tests_cant": "All flag/orientation combinations in all graphs.", "anchors": ["src/pfaedle/osm/OsmBuilder.cpp: edgesSim, collapseEdges"]}
{"id": "C16", "title": "Every edge has an opposite edge", "statement": "After graph construction each edge has an edge in the opposite direction; added opposite edges have the reversed geometry, the same level, lines and cost, and the mirrored one-way state; edges that already existed are not changed.", "quantifier": "every finite directed graph, every iteration order", "why_tests_cant": "The pass modifies adjacency lists while walking over them.", "anchors": ["src/pfaedle/osm/OsmBuilder.cpp: writeODirEdgs", "src/pfaedle/trgraph/EdgePL.cpp: revCopy"]}
{"id": "C17", "title": "Component ids are exactly the connected components", "statement": "After graph construction two nodes have the same component id iff they are connected by a path ignoring directions, every node has a component, and the recorded maximum speed of a component is the largest (corrected) speed of any edge touching it.", "quantifier": "every finite graph, every node order", "why_tests_cant": "Depth-first search over arbitrary graphs.", "anchors": ["src/pfaedle/osm/OsmBuilder.cpp: writeComps", "src/pfaedle/trgraph/NodePL.cpp: setComp, getCompId, getComp"]}
{"id": "C18", "title": "Edge costs never under-estimate and never wrap", "statement": "Edge costs in tenths of seconds are rounded up and saturate at the largest 32-bit value, so an edge cost is never smaller than the exact cost unless that exceeds the 32-bit range; the A* heuristic rounds down.", "quantifier": "every non-negative exact cost", "why_tests_cant": "All magnitudes including those beyond 32 bit.", "anchors": ["src/pfaedle/osm/OsmBuilder.cpp: costToInt", "src/pfaedle/router/Weights.cpp: DistHeur"]}
{"id": "C19", "title": "Closing a gap keeps the driving direction of one-way edges", "statement": "When two dangling way ends less than one metre apart are joined, the joined edge can be driven in the same direction as before. (Fails if the edge of the removed node starts at that node: its direction is flipped.)", "quantifier": "every pair of dangling edges, all orientations and one-way states", "why_tests_cant": "All orientation/flag combinations.", "anchors": ["src/pfaedle/osm/OsmBuilder.cpp: fixGaps"]}
{"id": "C20", "title": "Edge payload memory is released exactly once", "statement": "Over any history of creating, copying, flat-copying, extending and destroying edge payloads, a polyline and a line record is alive as long as a live payload uses it, is freed exactly when the last user dies, and is never freed twice.", "quantifier": "every history of payload operations", "why_tests_cant": "Reference counts depend on the whole history.", "anchors": ["src/pfaedle/trgraph/EdgePL.cpp: EdgePL(const EdgePL&), ~EdgePL, addLine, addLines, addPoint, revCopy, unRefTLine"]}
{"id": "C21", "title": "Station state of a node reflects the last assignment", "statement": "A node is a station with given info, a blocker, a turning circle or plain according to the last call that set it; the states are mutually exclusive and station infos of other nodes are not affected.", "quantifier": "every history of set calls over all nodes, as long as fewer than 2^32-2 station infos exist", "why_tests_cant": "The three states share one integer with sentinel values.", "anchors": ["src/pfaedle/trgraph/NodePL.cpp: setSI, getSI, setBlocker, isBlocker, setTurnCycle, isTurnCycle"]}
{"id": "C22", "title": "Cost addition saturates and the hop cache returns what was stored", "statement": "Adding path costs never wraps: the result is the exact sum or 'infinite'. After any history of storing exact costs and lower bounds for edge pairs, a lookup returns the last stored value with its kind, and nothing for pairs never stored.", "quantifier": "all 32-bit cost pairs; every store history", "why_tests_cant": "Full 32-bit range and arbitrary histories.", "anchors": ["src/pfaedle/router/Router.tpp/Router.h: addNonOverflow", "src/pfaedle/router/HopCache.cpp: setMin, setEx, get"]}
{"id": "C23", "title": "Transition cost between edges is a pure function", "statement": "The routing cost of moving from one edge to the next is independent of previously evaluated edges (memoised values are transparent), never below the (line-matched) cost of the edge left, saturates instead of wrapping, and adds the full-turn and turn-restriction penalties exactly when they apply.", "quantifier": "every sequence of evaluations, all costs and options", "why_tests_cant": "Memo fields carry over between arbitrary calls.", "anchors": ["src/pfaedle/router/Weights.cpp: CostFunc::operator(), transitLineSimi"]}
{"id": "C24", "title": "A* heuristic is admissible", "statement": "The distance heuristic never exceeds the true remaining routing cost, for single and multiple targets, if the straight-line distance obeys the triangle inequality and no edge is faster than the component maximum speed; memoisation does not change its value.", "quantifier": "every graph, target set, path and query order", "why_tests_cant": "All paths in all graphs.", "anchors": ["src/pfaedle/router/Weights.cpp: DistHeur::DistHeur, DistHeur::operator()"]}
{"id": "C25", "title": "Map-matching picks a cheapest combination of candidates", "statement": "For every trip, the sequence of stop candidates selected by the router has minimal total cost (emission penalties plus transition costs, saturating) among all candidate sequences whose transitions are finite.", "quantifier": "every trip trie, candidate lists and hop-cost matrix", "why_tests_cant": "Optimality is a statement over exponentially many alternatives.", "anchors": ["src/pfaedle/router/Router.tpp: Router::route"]}
{"id": "C26", "title": "Every trip gets one connected hop per stop pair", "statement": "The routing result holds for every trip leaf exactly one hop per consecutive pair of its stops, in order, each hop ending at the candidate where the following hop starts.", "quantifier": "every trie, candidate assignment and cost matrix", "why_tests_cant": "Back-tracking through predecessor tables over arbitrary tries.", "anchors": ["src/pfaedle/router/Router.tpp: Router::route", "src/pfaedle/router/ShapeBuilder.cpp: getGeom"]}
{"id": "C27", "title": "Routing never gets stuck", "statement": "If each stop's candidate list contains the 'no position' candidate the router finds a finite-cost candidate at each stop, however many transitions are impossible.", "quantifier": "every trie, candidate lists containing the null candidate, every hop-cost matrix (even all-infinite), as long as penalties stay below the 32-bit range", "why_tests_cant": "All-impossible cost matrices and arbitrary tries.", "anchors": ["src/pfaedle/router/Router.tpp: Router::route (fallback loops)", "src/pfaedle/router/ShapeBuilder.cpp: getEdgCands"]}
{"id": "C28", "title": "Hop costs account for partial first and last edges without underflow", "statement": "The cost of a hop between two positions on edges is the path cost minus the part of the first edge before the start position plus the part of the last edge up to the end position; the 32-bit computation never wraps below zero.", "quantifier": "all progress values in [0,1], all edge costs, all path costs at least the cost of the first edge", "why_tests_cant": "All 32-bit cost values.", "anchors": ["src/pfaedle/router/Router.tpp: Router::hops, hopsFast"]}
{"id": "C29", "title": "Hop cache does not change results", "statement": "Routing with the hop cache enabled returns the same hop costs as without it. All lookups in one cache are made with the same line attributes. (A cache shared by different attributes would change results; the clustering excludes this by giving every trip of a group the attributes of the group's first trip.)", "quantifier": "every sequence of routed hops sharing a cache", "why_tests_cant": "Depends on history of arbitrary earlier queries.", "anchors": ["src/pfaedle/router/Router.tpp: Router::hops, hopsFast, cacheDrop", "src/pfaedle/router/HopCache.cpp", "src/pfaedle/router/RoutingAttrs.h", "src/pfaedle/router/ShapeBuilder.cpp: shapeWorker"]}
{"id": "C30", "title": "Routing attributes are grouped by a proper order and merged as a set", "statement": "The order used to group trips is a strict weak order whose equivalence is equal line name and equal station of origin; merging attributes yields the sorted, duplicate-free union of the destinations, independent of merge order; similarity queries are answered as if there were no memo table. (The last part fails for queries after a merge: the memo table is not invalidated.)", "quantifier": "all attribute values, all merge sequences", "why_tests_cant": "Container invariants over arbitrary strings.", "anchors": ["src/pfaedle/router/RoutingAttrs.h: merge, operator<, operator==, simi"]}
{"id": "C31", "title": "Trip trie stores each trip at the node spelling its stop sequence", "statement": "After any sequence of adds, each accepted trip is listed at exactly one node, and the path from the root to it spells the trip's stops (up to the trie's stop equality) as alternating departure/arrival nodes; trips of the same node have equal stop sequences up to that equality, hence the same number of stops.", "quantifier": "every sequence of trip insertions", "why_tests_cant": "Tree shape depends on the whole insertion history.", "anchors": ["src/pfaedle/router/TripTrie.tpp: add, get, insert, getMatchChild"]}
{"id": "C32", "title": "Trip trie counters are exact", "statement": "Each node's trip counter equals the number of (time-respecting) trips passing through it and its accumulated time is the sum of their elapsed times to this stop, so the average travel time used for routing is the mean over the trips sharing that prefix.", "quantifier": "every sequence of trip insertions", "why_tests_cant": "History-dependent accumulators.", "anchors": ["src/pfaedle/router/TripTrie.tpp: add, insert", "src/pfaedle/router/TripTrie.h: TripTrieNd"]}
{"id": "C33", "title": "Rejected trips leave the trie unchanged", "statement": "Adding a trip that is refused (for example because its times are unusable or its stop sequence is a strict prefix/extension in degenerate mode) has no effect on the trie.", "quantifier": "every trie and trip", "why_tests_cant": "All reachable tries.", "anchors": ["src/pfaedle/router/TripTrie.tpp: add, get"]}
{"id": "C34", "title": "Stop candidates start with the null candidate and stay aligned between arrival and departure", "statement": "Each stop's candidate list begins with the position-less fallback; the others are starts of edges leaving nearby stations and closest positions on nearby edges, and no nearby edge is closer than all snapped ones. A departure node's candidates correspond one-to-one, in order, to the arrival node's candidates. Consequently every accepted trip gets one hop per pair of consecutive stops, from a candidate of the one to a candidate of the other, and consecutive hops meet.", "quantifier": "every stop, grid content and trie", "why_tests_cant": "Index alignment across two data structures for all tries.", "anchors": ["src/pfaedle/router/ShapeBuilder.cpp: getEdgCands, getECM, timeExpand"]}
{"id": "C35", "title": "Shape point measures and stop distances are non-decreasing and consistent", "statement": "A generated shape has sequence numbers 0..n-1, distances starting at 0 and never decreasing along the shape, and each stop's distance equals the measure of the shape point where the stop's hop ends; stop distances never decrease. Holds with rounding.", "quantifier": "every list of hop polylines, every monotone rounding", "why_tests_cant": "Floating point accumulation over arbitrary lines.", "anchors": ["src/pfaedle/router/ShapeBuilder.cpp: getGtfsShape, getMeasure, setShape"]}
{"id": "C36", "title": "Fresh shape ids are unique", "statement": "The ids generated for new shapes are pairwise different, are not the id of a shape present in the feed when issued, and the search for an id always ends. (Ids of shapes dropped earlier can be re-issued, in which case shapes.txt contains old and new points under one id.)", "quantifier": "every feed, every sequence of issued ids interleaved with shape additions and removals", "why_tests_cant": "Every history of additions and removals.", "anchors": ["src/pfaedle/router/ShapeBuilder.cpp: getFreeShapeId, shapeWorker", "src/pfaedle/gtfs/Writer.cpp: writeShapes"]}
{"id": "C37", "title": "A shape still used by a trip is never removed", "statement": "Under every interleaving of the worker threads, an old shape is removed only after all trips that referenced it were given a new shape; hence every shape id in the output trips refers to an existing shape. (A shape that became unused may survive: lost update on the unsynchronised use counter.)", "quantifier": "every interleaving of any number of workers, every trip-to-shape assignment", "why_tests_cant": "Thread schedules cannot be enumerated by tests.", "anchors": ["src/pfaedle/router/ShapeBuilder.cpp: shapeify, shapeWorker, setShape"]}
{"id": "C38", "title": "Each work item is processed exactly once", "statement": "Round-robin distribution assigns each item to exactly one worker for every number of workers >= 1, and the atomic-counter work loop processes each trie exactly once under every interleaving.", "quantifier": "every number of items and workers, every interleaving", "why_tests_cant": "Thread schedules.", "anchors": ["src/pfaedle/router/ShapeBuilder.cpp: buildCandCache, clusterTrips, shapeWorker", "src/shapevl/Collector.cpp / ShapevlMain.cpp: worker loop"]}
{"id": "C39", "title": "Route colouring keeps trips and routes consistent", "statement": "After colour assignment each trip whose matched colour differs from its route's colour is attached to a route with that colour that is a copy of its original route; all other trips keep their route; new route ids are fresh; fare rules are duplicated; placeholders for unmatched trips are never dereferenced; without --write-colors no route is added or recoloured. The colour of a shape is the one counted for the largest share of its length, if that is above 90 percent. (The text colour of a route is overwritten even without --write-colors.)", "quantifier": "every feed, every colour assignment", "why_tests_cant": "All combinations of routes and colours.", "anchors": ["src/pfaedle/router/ShapeBuilder.cpp: updateRouteColors, shapeify, shapeWorker"]}
{"id": "C40", "title": "Temporary shape storage round-trips", "statement": "After any sequence of shape additions and removals, iterating the shape storage yields exactly the points of the added shapes that are still registered, in order of addition, with sequence numbers 1..n and bit-identical coordinates. (Requires non-empty ids without white space, at least one point per shape, and ids not re-added after removal.)", "quantifier": "every sequence of adds/removes, all coordinates", "why_tests_cant": "Binary encoding over arbitrary payloads.", "anchors": ["src/pfaedle/gtfs/ShapeContainer.tpp: add, remove, open, nextStoragePt, has"]}
{"id": "C41", "title": "shapes.txt contains exactly the kept old and all new shape points", "statement": "The written shapes.txt consists of the points of the input file whose shape id is still registered, in input order, followed by the stored new points.", "quantifier": "every input shape file and registration set", "why_tests_cant": "The writer caches the last accepted/skipped id; correctness over all id sequences.", "anchors": ["src/pfaedle/gtfs/Writer.cpp: writeShapes"]}
{"id": "C42", "title": "stop_times.txt keeps every row and gets the distance of its own stop", "statement": "Each input stop_times row is written once, in order, unchanged except for the distance, which is the new distance of the stop time of that trip with that sequence number if the trip was re-shaped. (Fails for sequence numbers >= 65536.)", "quantifier": "every stop_times file and feed", "why_tests_cant": "All sequence numbers and row orders.", "anchors": ["src/pfaedle/gtfs/Writer.cpp: writeStopTimes", "src/pfaedle/gtfs/StopTime.h: getSeq"]}
{"id": "C43", "title": "A crash never leaves a half-written feed file", "statement": "At every instant during writing, each feed file in the target directory is either the complete old or the complete new version (write to temporary file, then rename); with in-place processing every source file is read before it is replaced.", "quantifier": "every crash point, every set of files", "why_tests_cant": "Every crash point.", "anchors": ["src/pfaedle/gtfs/Writer.cpp: Writer::write and the per-file writers"]}
{"id": "C44", "title": "Name normalisation is a pure function", "statement": "norm(s) returns the rule chain applied to s, lower-cased, whatever was normalised before and through copies and assignments of the normaliser.", "quantifier": "every history of norm calls, copies, assignments", "why_tests_cant": "Cache state depends on history.", "anchors": ["src/pfaedle/trgraph/Normalizer.cpp: norm, Normalizer(const Normalizer&), operator="]}
{"id": "C45", "title": "Line and station similarity are symmetric and mean what they say", "statement": "Two line labels are similar iff they are equal or one is the other extended by a blank-separated prefix or suffix; station infos are similar iff some pair of their names is; both relations are reflexive and symmetric.", "quantifier": "all strings, all station infos", "why_tests_cant": "All strings.", "anchors": ["src/pfaedle/router/Comp.h: lineSimi, statSimi", "src/pfaedle/trgraph/StatInfo.cpp: simi"]}
{"id": "C46", "title": "Station name classification is symmetric and accepts equal names", "statement": "Each of the station name classifiers decides symmetrically in its two stations; equal names (at equal positions) are similar; the combined name/distance score lies in [0,1] and moving stations closer or making names more similar never turns a similar pair into a dissimilar one. (Two empty names are dissimilar for the edit-distance classifiers.)", "quantifier": "all pairs of names and positions, every token similarity, edit distance and distance decay meeting the stated contracts", "why_tests_cant": "All strings and positions.", "anchors": ["src/pfaedle/statsimi-classifier/StatsimiClassifier.cpp: JaccardGeodistClassifier::similar, JaccardClassifier::similar, BTSClassifier::similar, EDClassifier::similar, PEDClassifier::similar"]}
{"id": "C47", "title": "Shape evaluation counters are consistent", "statement": "After any sequence of compared trips, every trip is counted once as skipped or compared; each threshold counter is the number of compared trips whose fraction of differing segments does not exceed the threshold, so the counters do not decrease with the threshold and never exceed the number of trips compared; there is one result per compared trip (if no trip is given twice), ordered by distance; the percentages, median, average and maximum printed are those of the outcomes. If the lines compared are apart (points nearer than the tolerance are equal), no outcome depends on the trips compared before and the order of the trips makes no difference to the counters.", "quantifier": "every sequence of trips and shapes, every segment length and geometry", "why_tests_cant": "History-dependent counters and caches.", "anchors": ["src/shapevl/Collector.cpp: Collector::add, Collector::getDa, Collector::getStats", "src/shapevl/Result.h: Result"]}
{"id": "C48", "title": "Equal lines share a cache entry, and only those", "statement": "The tolerance-based comparison used to index already compared shapes is irreflexive and asymmetric, treats two lines as the same exactly if they have as many points and corresponding points are within the tolerance, and is a strict weak order on every set of lines whose points are apart. (It is not one for all lines; near lines get each other's cached results.)", "quantifier": "all polylines", "why_tests_cant": "Triples of near-equal lines.", "anchors": ["src/shapevl/Collector.h: lineCmp", "src/shapevl/Collector.cpp: Collector::add (caches)"]}
{"id": "C49", "title": "Configuration rules and settings are read faithfully", "statement": "A filter rule key=value|flag1|flag2 is read as its key, value (text after the first '=', empty if there is none) and flags; rendering and reading are inverse. Normalisation rules are split at the first ' -> ' and unquoted; attribute rules [rule]attr and attr are told apart. Every setting of a section is the value of its option, or of its deprecated option after conversion, or its default. (False: flags of a repeated rule are ignored; restricted turns cost ten times the one-way entry cost the comment promises; large entry costs overflow.)", "quantifier": "all strings, all sections, all interpretations of raw values", "why_tests_cant": "There are infinitely many strings and combinations of options.", "anchors": ["src/pfaedle/config/MotConfigReader.cpp: MotConfigReader::parse, getKv, getFRule, getFlags, getNormRules, getDeepAttrRule"]}
{"id": "C50", "title": "Sections share a configuration exactly if they agree, and every vehicle type has one", "statement": "Every vehicle type named by a section belongs to the first configuration the section's settings agree with; the settings of a configuration are those of one of the sections, and no configuration agrees with an earlier one. The configuration file is refused exactly if one of its sections is. (False: sharing sections have equal settings - the level-7 filter, id rules, id normalisation and edge platform rules are not compared, and the tolerance 0.01 is larger than usual values; independence of the order; one configuration per type.)", "quantifier": "all sequences of sections", "why_tests_cant": "All sequences of sections with all settings.", "anchors": ["src/pfaedle/config/MotConfigReader.cpp: MotConfigReader::parse", "src/pfaedle/config/MotConfig.h: operator==", "src/pfaedle/osm/OsmReadOpts.h: operator==", "src/pfaedle/router/Misc.h: operator==, motISect"]}
{"id": "C51", "title": "Colour parsing", "statement": "#RRGGBB, #RGB and the 16 HTML colour names are parsed case-insensitively to their value; malformed strings yield 'no colour'. (The last part fails: any other string is parsed as black, including RRGGBB without '#'.)", "quantifier": "all strings", "why_tests_cant": "All strings.", "anchors": ["src/pfaedle/osm/OsmBuilder.cpp: parseHexColor, getLines"]}
{"id": "C52", "title": "Station attribute lookup uses the first matching rule", "statement": "A station's names are the non-empty normalised values of the configured rules in rule order (first = main name), its platform is the first non-empty one; a rule bound to relations takes the value from the first relation of the node matching the rule that has the attribute.", "quantifier": "all tags, relations, rules", "why_tests_cant": "All combinations.", "anchors": ["src/pfaedle/osm/OsmBuilder.cpp: getAttr, getAttrByFirstMatch, getAttrMatchRanked, getStatInfo"]}
{"id": "C53", "title": "Restriction relations are read as written", "statement": "A relation of type restriction with exactly one from way, one to way, a via node and a positive or negative restriction tag yields exactly one rule of that polarity at that node; all other relations yield none.", "quantifier": "all relations", "why_tests_cant": "All member lists and roles.", "anchors": ["src/pfaedle/osm/OsmBuilder.cpp: readRestr"]}
{"id": "C54", "title": "Station snapping never walks through too sharp turns or too far", "statement": "The search for an equivalent station returns a node only if it satisfies the criterion and is reachable from the start edge within the distance limit and number of allowed full turns; if it returns nothing, there is a region around the start edge, closed under allowed steps, in which no node satisfies it; without sharp turns no node within the limits satisfies it. The search always ends.", "quantifier": "every graph, edge, limit", "why_tests_cant": "Graph search over arbitrary graphs.", "anchors": ["src/pfaedle/osm/OsmBuilder.cpp: depthSearch, isBlocked, eqStatReach", "src/pfaedle/osm/OsmBuilder.h: operator<(NodeCand)"]}
{"id": "C55", "title": "Only trips of requested kinds without shape are touched", "statement": "Trips whose route type is not processed, trips with an existing shape when shapes are not dropped, and trips with fewer than two stops keep their shape and stop distances; every other trip is assigned to exactly one routing cluster.", "quantifier": "every feed and options", "why_tests_cant": "All feeds.", "anchors": ["src/pfaedle/router/ShapeBuilder.cpp: clusterTrips, clusterWorker, shapeWorker"]}
{"id": "C56", "title": "Worker threads never write the shared name caches", "statement": "The normaliser caches and the per-trip attribute table are filled before worker threads start; every later lookup by the workers only reads them.", "quantifier": "every feed, every number of workers, every schedule", "why_tests_cant": "Data races depend on the schedule and on which names were seen before.", "anchors": ["src/pfaedle/router/ShapeBuilder.cpp: clusterTrips, getRAttrs, getEdgCands", "src/pfaedle/trgraph/Normalizer.cpp: norm"]}
{"id": "C57", "title": "Shapes are continuous and follow the matched road", "statement": "The shape written for a trip consists of one part per pair of consecutive stops. Each part begins at the position matched for the first stop and ends at the position matched for the second, consecutive parts meet in a point, and a part that was routed runs along the edges of its path in driving direction (vertices may be dropped by simplification), while a part for which no path was found is a straight line. Building the shape never leaves a vector.", "quantifier": "every trip, every hop list the router returns, every edge geometry and direction, every simplification that keeps end points", "why_tests_cant": "Gaps appear only for particular combinations of empty geometries, reversed edges, zero offsets and missing candidates.", "anchors": ["src/pfaedle/router/ShapeBuilder.cpp: getGeom, getLine, getGtfsShape"]}
{"id": "C58", "title": "From a feed to its shapes, end to end", "statement": "Run on a feed with any number of clustering and shape workers (at least one), the computation never hits an exception or an out-of-bounds access; once the workers are done every trip the options select has a new shape id, a registered and stored shape made of one part per pair of consecutive stops between candidates of these stops, and one distance per stop; every other trip keeps its shape, that shape stays registered, and its distances are untouched. There are schedules with which the workers finish.", "quantifier": "every feed, option set, graph, cost model, shortest-path routine that returns paths, and every interleaving of the clustering and of the shape workers", "why_tests_cant": "The claim composes clustering, candidate search, routing, drawing and assignment over all schedules; tests see a few feeds and schedules.", "anchors": ["src/pfaedle/router/ShapeBuilder.cpp: shapeify(gtfs), clusterTrips, shapeify(trie), shapeWorker, getGtfsShape"]}
{"id": "C59", "title": "Snapping stations keeps the network", "statement": "Putting the stations of the map onto its ways never moves, loses or disconnects anything: all nodes keep their position, stations keep their info (at most a missing track is filled in), every edge is still there or was replaced by a chain of edges with the same attributes by way of new station nodes, the turn restrictions were told of every replacement, and ways above the level limit are never split. A station is placed on an edge only if no equivalent station is reached nearby; it then gets the info of the snapped station.", "quantifier": "every network, set of stations, list of distances, order of edges and search order", "why_tests_cant": "Edges are replaced while candidates found earlier are still handled; which edges are split depends on the order of stations and distances.", "anchors": ["src/pfaedle/osm/OsmBuilder.cpp: snapStats, snapStation, depthSearch, eqStatReach, isBlocked"]}
{"id": "C60", "title": "The lines of an edge are those of its relations", "statement": "Every way gets, for each relation it is a member of that has a line name, origin or destination, exactly one line with these (normalised) names, in order; two relations share a line exactly if all three names agree; a line has the colour of the first relation read with these names.", "quantifier": "all relations, tags, rules, normalisers and sequences of ways", "why_tests_cant": "Lines are cached per relation and shared per name over the whole file; which relation creates the line depends on the order of all ways.", "anchors": ["src/pfaedle/osm/OsmBuilder.cpp: getLines, readEdges", "src/pfaedle/trgraph/EdgePL.h: TransitEdgeLine"]}
{"id": "C61", "title": "Shapes are cut at the stops for comparison", "statement": "For every trip and shape with non-decreasing distances the shape is cut at the unique point at the distance travelled of each stop (first point before, last point after the shape, linear interpolation between), giving one segment between every two successive stops and no division by zero.", "quantifier": "all trips, stops, distances and non-empty shapes", "why_tests_cant": "Repeated distances, distances before the first and after the last point of the shape, in any combination.", "anchors": ["src/shapevl/Collector.cpp: Collector::segmentize, Collector::getLine"]}
{"id": "C62", "title": "The greatest speed of a configuration bounds every discounted edge", "statement": "The greatest speed of a configuration is that of its fastest level divided by the product of the penalty factors below 1. So no edge, whatever penalty factors are applied to it, is traversed faster than at this speed, and the bound is reached by some level and factors.", "quantifier": "all configurations, levels and sets of applied factors", "why_tests_cant": "All values of all options and all combinations of factors.", "anchors": ["src/pfaedle/config/MotConfigReader.cpp: MotConfigReader::parse"]}
{"id": "C63", "title": "The area read covers the stops of the trips to be matched", "statement": "The area of the OSM data that is read is made of one box per trip to be matched (right type, two stops, no shape or shapes dropped; with -T just that trip), the smallest around its stops, padded. Every stop of such a trip is in it with the padding around it, unless the vehicle could neither reach nor leave the stop in nine times the scheduled time plus five minutes at the maximum speed; first and last stops always are. The area of an extract (-X) covers what any later run on these feeds needs, for every subset of the types, every configuration and either treatment of shapes. Without trips to be matched nothing is in the area. Hop distances are those between consecutive stops of these trips.", "quantifier": "every feed, set of types, option, maximum speed and padding", "why_tests_cant": "Outliers depend on all combinations of distances and times of neighbouring stops, and boxes are merged in an index whose shape depends on the whole feed.", "anchors": ["src/pfaedle/router/ShapeBuilder.cpp: getGtfsBox, clusterTrips", "src/pfaedle/PfaedleMain.cpp: main", "src/pfaedle/osm/BBoxIdx.cpp: add"]}
{"id": "C64", "title": "Exit codes and effects of a run", "statement": "The exit code tells the first thing that went wrong, in a fixed order. A feed is written at most once, as the last effect, to the output path (or the path of the only input feed if asked to work in place), and only if all inputs and configurations needed were fine; a failing run never leaves a feed reported as written. A plain run exits with 0 exactly if the feed was written; then every trip of the feed is in it, in order, those to be matched with a shape computed for a configuration of their type (the first such, or the last one if shapes are dropped), all others unchanged. With -X, -a or -f (in this priority) nothing is matched or written as a feed and exactly the configurations for selected types are used. With -T the path of the trip is written once and no feed.", "quantifier": "every command line, set of configurations, feed, and success or failure of reading and writing each file", "why_tests_cant": "The product of modes, numbers of feeds and failing files is far beyond a test matrix, and the order of checks only shows when several fail at once.", "anchors": ["src/pfaedle/PfaedleMain.cpp: main, RetCode", "src/pfaedle/router/Misc.h: motISect, writeMotStops", "src/pfaedle/router/ShapeBuilder.cpp: clusterTrips, shapeify"]}
{"id": "C65", "title": "shapevl evaluates every feed exactly once, with any number of threads and any schedule", "statement": "When the evaluation threads have ended, the collector of each feed was given exactly the comparisons of that feed: the chosen trips of the wanted types which the feed has with a shape, in order, none twice and none for another feed. No two threads ever use the same collector. A feed that cannot be read ends the program, nothing else does, and the threads end after finitely many turns. With --unique the ground truth trips are split into groups of one route that stop at the same places, equal trips are in one group, and each group is compared once, by its first trip, with weights adding up to the number of trips that have stops.", "quantifier": "all feeds, trips and stops, all numbers of threads (at least one) and all schedules", "why_tests_cant": "a test sees a few feeds and the schedules its machine happens to produce", "anchors": ["src/shapevl/ShapevlMain.cpp:eval", "src/shapevl/ShapevlMain.cpp:count", "src/pfaedle/router/TripTrie.tpp:addTrip"]}
{"id": "C66", "title": "shapevl's result is determined by its arguments and feeds", "statement": "Every argument list has exactly one reading: options with their last value, feeds as the set of real paths. -h gives exit code 0; a missing value, a path that does not exist, a missing or unreadable ground truth or an unreadable feed gives 1; otherwise what is printed for each path, in order of the paths, is the evaluation of that feed, and with --json --avg the mean of each statistic. The result depends neither on the number of threads nor on the schedule, and the program ends.", "quantifier": "all argument lists, file systems, feeds, numbers of threads and schedules", "why_tests_cant": "the argument lists and schedules are unbounded", "anchors": ["src/shapevl/ShapevlMain.cpp:main", "src/shapevl/ShapevlMain.cpp:eval"]}
{"id": "C67", "title": "The command line means what its options say, wherever they stand", "statement": "A command line is read as a sequence of options (a letter, letters together, a name or the beginning of a name that no other name has; the value in the same or the next argument) and of other arguments, in exactly one way. If no help or version is asked for and nothing is missing or unknown, the configuration is: for options with one value the last value given or the default; for -i, -c and -P all values in order; a switch is on if and only if its option is present; the feeds are those of -i followed by all other arguments in order; the types are those of all parts of the last -m. Otherwise the program ends, with code 0 for the first help or version that comes before any error, and 1 for the first missing value or unknown option. Two spellings of an option are equivalent wherever they stand, feeds may stand anywhere, options do not influence each other. The configuration files are those given with -c, or without -c the existing ones of system, user and directory in this order.", "quantifier": "all argument lists, all meanings of numbers, types, splitting and trimming, all file systems", "why_tests_cant": "Tests try a few command lines; the statement is about all of them, in particular about clusters of letters, abbreviations, values that look like options and '--'.", "anchors": ["src/pfaedle/config/ConfigReader.cpp: ConfigReader::read", "src/pfaedle/config/PfaedleConfig.h: Config", "src/pfaedle/PfaedleMain.cpp: getCfgPaths"]}
{"id": "C68", "title": "The Overpass query asks for all that is needed", "statement": "With --overpass the program prints one well-formed query document. Run on OSM data, the query answers an entity iff that entity, or one that contains it, carries a tag of a keep rule that is not disabled for its kind and has a point in a box of the area as printed. Everything that reading the full data for any of the configurations would use (entities kept by tag in the area, members of kept relations in the area, all nodes of such ways) is in the answer, if the configurations agree on the flags of common rules, no rule matches lists of values and the points are further inside the area than the printed digits can move the border. Without feeds nothing is asked for.", "quantifier": "all sets of configurations, areas, roundings of coordinates and OSM data", "why_tests_cant": "Tests compare a few query texts; the claim is about the answers on every data set, for every combination of rules and areas.", "anchors": ["src/pfaedle/osm/OsmBuilder.cpp:overpassQryWrite", "src/pfaedle/osm/OsmFilter.cpp:merge", "src/pfaedle/osm/BBoxIdx.cpp:getLeafs"]}
{"id": "C69", "title": "The osmfilter rules select all that is needed", "statement": "With --osmfilter the program prints rules that select an entity iff some configuration has a keep rule with its key and with its value, an empty value or any value. So everything a configuration keeps is selected, unless a rule matches lists of values. The tags listed to be kept are exactly those some configuration reads, and dropping all others changes nothing for any configuration.", "quantifier": "all sets of configurations (with keys that do not look like headings) and all entities", "why_tests_cant": "The rules are the union over all configurations and kinds of entities; a missing key only shows for data that has it.", "anchors": ["src/pfaedle/osm/OsmBuilder.cpp:osmfilterRuleWrite", "src/pfaedle/osm/OsmBuilder.cpp:getKeptAttrKeys"]}
{"id": "C70", "title": "Transition penalties and search limits are the documented functions of the way between two stops", "statement": "With the method exp the penalty of a way between two stops is the penalty factor times its (punished) travel time; with distdiff it is the factor times the difference between the length of the way and the distance of the stops; with timenorm it is the squared relative deviation from the scheduled time (10 s at least) plus the exp penalty, and a way back in time is impossible. Penalties are never negative, exp prefers quicker ways and adds up over legs, distdiff and (without a factor) timenorm are free exactly for a way that is as long as the stops are apart / as slow as scheduled. The fast search, used with exp only, converts penalties back exactly for one way and to the nearest tenth of a second in general. The first search between two stops is limited to three times the scheduled time (at least the distance at the greatest speed, and a minute) with all punishments, so no way up to three times as slow as scheduled is missed. Under these penalties the chosen candidates are optimal. An unknown method ends the run.", "quantifier": "every method, penalty factor, cost, length, scheduled time, distance, set of candidates and punishment factor", "why_tests_cant": "a test fixes a few rational values and cannot exclude rounding, boundary and overflow errors at others, nor that the optimality of the dynamic program depends on the penalty chosen", "anchors": ["src/pfaedle/router/Weights.cpp:ExpoTransWeight::weight", "src/pfaedle/router/Weights.cpp:NormDistrTransWeight::weight", "src/pfaedle/router/Weights.cpp:DistDiffTransWeight::weight", "src/pfaedle/router/Weights.cpp:ExpoTransWeight::invWeight", "src/pfaedle/router/Weights.cpp:ExpoTransWeight::maxCost", "src/pfaedle/router/Router.tpp:RouterImpl::route", "src/pfaedle/PfaedleMain.cpp:main"]}
{"id": "C71", "title": "The transit graph shows exactly the used part of the network, whatever the threads do", "statement": "With --write-trgraph the graph written after the matching shows, for every number of threads, schedule and map iteration order, the edges of the network that matched trips use, in either direction, with their geometry, at nodes at their positions, each with every trip as often as its hops go along it; num_trips is the number of such passes and the names are those of exactly the trips that use the edge. Nothing else is shown; where no two used edges connect the same nodes every used edge is shown once, and the result does not depend on the schedule; where no used edge is a loop every node is shown once.", "quantifier": "every network, every set of matched leaves, every number of threads and interleaving, every iteration order of the hash maps", "why_tests_cant": "the merge runs over per-thread hash maps; a test sees one schedule and one iteration order", "anchors": ["src/pfaedle/router/ShapeBuilder.cpp:ShapeBuilder::shapeify", "src/pfaedle/router/ShapeBuilder.cpp:ShapeBuilder::writeTransitGraph", "src/pfaedle/router/ShapeBuilder.cpp:ShapeBuilder::buildNetGraph", "src/pfaedle/router/ShapeBuilder.cpp:ShapeBuilder::shapeWorker", "src/pfaedle/netgraph/EdgePL.h:EdgePL"]}
{"id": "C72", "title": "The network used for routing is the OSM graph", "statement": "After an OSM file was read, the network used for routing has every edge in both directions, each of them made of a chain of connected OSM edges with the same level, lines and restriction flag, with the simplified line of that chain and its travel time including one-way and no-lines penalties; every OSM edge is part of some edge; only stations and nodes with edges are left; one can turn at every station; two of its nodes can be reached from each other without entering a one-way street in the wrong direction exactly if the OSM graph allows it; they have the same component exactly if they are connected in the OSM graph, and the recorded maximum speed of the component is the greatest speed of its OSM edges.", "quantifier": "every graph read from OSM, every iteration order over nodes, every simplification that keeps the ends of a line, every choice of speeds and penalties", "why_tests_cant": "The passes are tested on a few small files at best; that they fit together (nothing lost, penalties in the right order, components still right after the later passes) depends on all graphs and all iteration orders.", "anchors": ["src/pfaedle/osm/OsmBuilder.cpp:OsmBuilder::read", "src/pfaedle/osm/OsmBuilder.cpp:OsmBuilder::writeOneWayPens", "src/pfaedle/osm/OsmBuilder.cpp:OsmBuilder::writeNoLinePens", "src/pfaedle/osm/OsmBuilder.cpp:OsmBuilder::collapseEdges", "src/pfaedle/osm/OsmBuilder.cpp:OsmBuilder::writeSelfEdgs"]}
{"id": "C73", "title": "Single-trip mode draws the trip's shape", "statement": "With -T the program draws, for the trip asked for, one non-empty line per two consecutive stops, each along a hop between edge candidates of these two stops, consecutive lines meeting; and the points drawn are exactly those of the shape a full run would store for this trip if it were the only one to process (without hop cache). A trip with fewer than two stops, which the full run skips, makes the outcome undefined.", "quantifier": "every trip, feed, street graph, routing configuration and schedule of the workers of the full run", "why_tests_cant": "the two code paths (single trip, full run) only share parts; agreement must hold for every trip and graph, and path and shape are results of searches over unbounded graphs", "anchors": ["src/pfaedle/router/ShapeBuilder.cpp:shapeL", "src/pfaedle/router/ShapeBuilder.cpp:shapeify", "src/pfaedle/PfaedleMain.cpp:main"]}
{"id": "C74", "title": "On the network built from OSM the search is never misled", "statement": "On the network built from any OSM graph, the lower bound that guides the search (straight distance divided by the maximum speed recorded for the area of the start edge) never exceeds the cost of any path to a target, for the edge costs and transition costs the program uses, including factors below 1 that make edges cheaper and the rounding of the recorded speed to a float; with a float the path must cost less than 19 days.", "quantifier": "every OSM graph, every option set, every start edge, every edge of its area, every path to every target, every rounding with a bounded relative loss", "why_tests_cant": "Admissibility depends on how six passes over the graph, the speed correction, the integer rounding of costs and the transition costs fit together; a test sees single searches where a wrong bound usually does no harm.", "anchors": ["src/pfaedle/osm/OsmBuilder.cpp:OsmBuilder::read", "src/pfaedle/osm/OsmBuilder.cpp:OsmBuilder::writeEdgeTracks", "src/pfaedle/trgraph/NodePL.h:Component", "src/pfaedle/router/Weights.cpp:ExpoTransWeight::DistHeur", "src/pfaedle/router/Router.tpp:RouterImpl::hops", "src/pfaedle/config/MotConfigReader.cpp:MotConfigReader::parse"]}
{"id": "C75", "title": "Every graph asked for is output", "statement": "With --write-trgraph a run over several configurations leaves one file per configuration that is used, each with the transit graph of that configuration, unless a later configuration is used for exactly the same vehicle types; the file name lists the families of types that are complete and then the remaining types, and different sets of types have different names. With --write-graph there is only one file, which holds the network of the last configuration used.", "quantifier": "every set of selected types, every list of configurations, every assignment of types to families and of names to types", "why_tests_cant": "the names come from a greedy decomposition of arbitrary sets of vehicle types; collisions only show up for particular combinations of configurations and selected types", "anchors": ["src/pfaedle/PfaedleMain.cpp:getFileNameMotStr", "src/pfaedle/PfaedleMain.cpp:main", "src/pfaedle/router/Misc.h:motISect"]}
{"id": "C76", "title": "The network is made of the OSM file and nothing else", "statement": "For every well-formed OSM file, whatever the order in which gaps are closed and stations are snapped, reading the file succeeds. Each edge of the network the router gets is made of a chain of pieces of steps of wanted ways of the file, with the direction, level, lines and restriction mark of that step; pieces meet at stations put on the street; the only edges that join other nodes are those that close a gap of at most a metre at the end of a street. Every step of a wanted way whose nodes did not get lost in closing a gap is covered by the network. The nodes have the position they have in the file, stations keep their info, and one can turn where the file says so.", "quantifier": "all files (any nodes, ways, relations, filters), all orders of the queue, of the grids and of the node iteration, all options", "why_tests_cant": "The parts are tested one by one at best; that each part leaves what the next one relies on, for all files and orders, is no finite test.", "anchors": ["src/pfaedle/osm/OsmBuilder.cpp:read", "src/pfaedle/osm/OsmBuilder.cpp:fixGaps", "src/pfaedle/osm/OsmBuilder.cpp:snapStats", "src/pfaedle/osm/OsmBuilder.cpp:collapseEdges", "src/pfaedle/osm/OsmBuilder.cpp:writeODirEdgs"]}
{"id": "C77", "title": "The search punishes exactly the turns the OSM file forbids", "statement": "For every well-formed OSM file, at every node at which each way that meets there has one edge: the search adds the turn restriction penalty for going on from one edge of the network to another exactly when the turn restrictions of the file at that node (mandatory and prohibitive, in file order) do not allow the turn between the ways these edges were made from, although in between edges were split at stations, collapsed and doubled into both directions. This holds for streets that do not end at a gap which was closed: the restrictions of a street that is moved to close a gap are lost.", "quantifier": "all files (any nodes, ways, relations, filters), all orders of the queue, of the grids and of the node iteration, all options, all nodes and all pairs of edges that meet there", "why_tests_cant": "Restrictions are kept by edge identity in a table beside the graph; each pass replaces edges, and one pass that forgets the table breaks them for some file only.", "anchors": ["src/pfaedle/osm/OsmBuilder.cpp:read", "src/pfaedle/osm/Restrictor.cpp:may", "src/pfaedle/osm/Restrictor.cpp:replaceEdge", "src/pfaedle/osm/Restrictor.cpp:duplicateEdge", "src/pfaedle/router/Weights.cpp:ExpoTransWeight::CostFunc::operator()", "src/pfaedle/osm/OsmBuilder.cpp:fixGaps"]}
{"id": "C78", "title": "New shapes lead along streets of the OSM file", "statement": "For every well-formed OSM file and every feed: the network is built, and for every schedule of the workers every selected trip ends up with a new, stored shape that serves its stops in order with a distance for each, in which every hop that was routed drives, edge after edge, from the street of one stop to the street of the next along edges of the network that are made of pieces of wanted ways of this file, with the level of such a way, and one-way only if such a way says so; the only other edges used are those for turning at a station. Trips that were not selected are as before. The shape follows the geometry of these edges if one-way loops lead back to their node (which can fail for loops collapsed from several one-way edges, see C72).", "quantifier": "all files, all orders inside the network construction, all feeds and options, all schedules of clustering and shape workers, all searches that yield a path between the edges asked for", "why_tests_cant": "The claim joins the two halves of the program: no finite number of files and feeds shows that whatever the search picks from whatever network was built is a street of the file.", "anchors": ["src/pfaedle/osm/OsmBuilder.cpp:read", "src/pfaedle/router/ShapeBuilder.cpp:shapeify", "src/pfaedle/router/ShapeBuilder.cpp:getGtfsShape", "src/pfaedle/router/Router.tpp:route", "src/pfaedle/PfaedleMain.cpp:main"]}
{"id": "C79", "title": "shapes.txt and stop_times.txt show for every trip the shape that was found for it", "statement": "For every feed and every list of configurations for different route types (each with its own network, options, number of threads and schedules), run one after the other on one feed: in the files written afterwards, every trip that a configuration selects refers to an id whose rows in shapes.txt are, in order, the points of a shape that serves the stops of this trip in the network of this configuration, and every row of the trip in stop_times.txt has the distance of its stop time along this shape; a trip that no configuration selects keeps its shape id, the rows of that shape and its distances; shapes no trip used remain; shapes.txt has no other rows, and rows of stop_times.txt differ in distances only. A later configuration does not touch what an earlier one did. The run ends with files written: there are schedules under which all threads finish, unless a shape is too large for memory.", "quantifier": "all feeds, all lists of configurations for different route types, all networks, numbers of threads and schedules, all input files with shape ids not of the form of new ones", "why_tests_cant": "The claim joins clustering, routing, id assignment, the shape container and both writers over several configurations; a mix-up of ids, trips or distances shows only for some schedules and some combinations of configurations.", "anchors": ["src/pfaedle/PfaedleMain.cpp:main", "src/pfaedle/router/ShapeBuilder.cpp:shapeify", "src/pfaedle/router/ShapeBuilder.cpp:setShape", "src/pfaedle/gtfs/ShapeContainer.tpp:add", "src/pfaedle/gtfs/Writer.cpp:writeShapes", "src/pfaedle/gtfs/Writer.cpp:writeStopTimes"]}
{"id": "C80", "title": "Nearer places do not cost more", "statement": "The cost of using a place for a stop follows its distance as the section's emission method says: factor times distance ('exp'), half of its square ('norm'), otherwise the distance itself. Under the settings of any section, of two streets in reach of a stop the nearer one is never dearer as a candidate than the farther one; of two station nodes that match the stop's name and platform alike the nearer one is never dearer; a station whose name matches is never dearer than a farther one; and no candidate costs less than the fallback at the stop's own position.", "quantifier": "every section of a configuration that can be read, every stop, every set of stations and streets around it with their distances, every order of the street set", "why_tests_cant": "The claim ranges over all real-valued settings and distances and over every pair of candidates; a test fixes a few.", "anchors": ["src/pfaedle/router/ShapeBuilder.cpp: emWeight, getEdgCands", "src/pfaedle/config/MotConfigReader.cpp: parse", "src/pfaedle/router/Misc.h: RoutingOpts"]}
{"id": "C81", "title": "The route found for a trip is a cheapest one through the network", "statement": "With --no-fast-hops (or a weight that does not allow the fast engine) and a transition weight that depends on cost and time only: for every trip there are limits, each the one the schedule allows doubled at most three times, such that the positions chosen at the stops have the least total cost among all ways to choose positions and to drive between them through the network below the limits; every drive between positions on the network follows a cheapest path; and driving is given up for a pair of stops only where no way can be driven below eight times the limit. The hop cache, if on and used with one network, does not matter.", "quantifier": "every set of trips, every candidate positions, every network, every order of the edge set, any cost type with the order laws, with and without cache", "why_tests_cant": "The claim compares the result with all choices of positions and all walks in the network, for all networks; a test can only enumerate tiny ones.", "anchors": ["src/pfaedle/router/Router.tpp: route, hops", "src/pfaedle/router/ShapeBuilder.cpp: getECM, getEdgCands"]}
{"id": "C82", "title": "Trips take cheapest ways through the network built from OSM", "statement": "C81 holds on the network that is built from the OSM graph, with the costs the program uses: a drive moves from an edge to an edge that starts where the first one ends; it pays for each edge left the cost of the edge after the factors for unmatched lines, plus the penalty of a full turn and that of a prohibited turn; the cost does not depend on what the cost function was asked before; and two edges whose components differ are never joined by a drive, so skipping the search for them loses nothing.", "quantifier": "every OSM graph, every order of the edges, every options with non-negative penalties and positive factors, every set of trips, every call history of the cost function", "why_tests_cant": "The claim ranges over all OSM graphs and all walks in the networks built from them; tests fix a network by hand and do not build it.", "anchors": ["src/pfaedle/router/Router.tpp: route, hops", "src/pfaedle/router/Weights.cpp: CostFunc::operator()", "src/pfaedle/osm/OsmBuilder.cpp: read, collapseEdges, writeComps, writeGeoms"]}
{"id": "C83", "title": "The route found by default can be driven as priced", "statement": "With the default hop engine and any contents of the hop cache: the shape of every trip that gets hops is made of drives between candidate positions of its stops; wherever driving was not given up, the drive follows a cheapest path of the network between the two positions chosen, costs less than the limit in force, and it is its real cost that enters the total, which is finite; driving is given up only after the limit of the schedule was doubled three times.", "quantifier": "every set of trips, candidate positions, network, cache contents, order of the edge set, cost type with the order laws", "why_tests_cant": "The engine searches from all sources at once with initial costs that are shifted and rounded; that the shifts cancel for every trip cannot be seen on examples.", "anchors": ["src/pfaedle/router/Router.tpp: route, hopsFast", "src/pfaedle/router/ShapeBuilder.cpp: getECM, getEdgCands"]}
{"id": "C84", "title": "New shapes follow cheapest ways", "statement": "After a run every selected trip has a new shape whose parts follow, stop by stop, the drives of a way to serve its stops. With the one-to-many hop engine that way is a cheapest one among all choices of candidate positions within the limits, and driving is given up only where it is impossible; with the default engine it is a way that can be driven at the price used. This holds for every interleaving of the clustering workers and of the shape workers, however the trips were grouped, and with the hop cache shared by the tries of a group.", "quantifier": "every feed, network, configuration, number of threads, schedule of the workers, sequence of name normalisations", "why_tests_cant": "Whether sharing the hop cache between tries, or grouping trips differently under another schedule, changes the route of some trip cannot be tested for all schedules and feeds.", "anchors": ["src/pfaedle/router/ShapeBuilder.cpp: shapeify, shapeWorker, route", "src/pfaedle/router/Router.tpp: route, hops, hopsFast", "src/pfaedle/router/HopCache.cpp"]}
{"id": "C85", "title": "From an OSM file and a feed to shapes along cheapest ways through its streets", "statement": "For every well-formed OSM file the network is built; for every feed, every schedule of the clustering and the shape workers and every search that works on this network with the costs of the program (base cost, factors for unmatched lines, penalties of full and of prohibited turns), every selected trip gets a shape whose hops lead along edges made of wanted ways of the file. With the 1 -> n engine the drives are those of a cheapest way to serve the stops of the trip; with the default engine they can be driven at the price the router sees. Such searches exist for every network.", "quantifier": "all files, all orders inside the network construction, all feeds and options, all schedules of both kinds of workers, all costs the program can be configured for, all searches that find cheapest walks, with and without the hop cache", "why_tests_cant": "The claim compares the shapes of any feed with all ways through the network of any file.", "anchors": ["src/pfaedle/osm/OsmBuilder.cpp:read", "src/pfaedle/router/ShapeBuilder.cpp:shapeify", "src/pfaedle/router/Router.tpp:route, hops, hopsFast", "src/pfaedle/router/Weights.cpp:CostFunc::operator()", "src/pfaedle/PfaedleMain.cpp:main"]}
{"id": "C86", "title": "Stations get the track numbers of the ways they lie on", "statement": "While an OSM file is read, an edge remembers the track number of the last way with one that runs along it. Afterwards every station node without a track that lies on such an edge has the track of one of them, a station with a track keeps its own, stations on no such edge have none; names, positions, other nodes and the list of stations to snap do not change, in whatever order the edges are gone through. If the ways a station lies on agree, it is their track; if they do not, the order decides. The network is built as without tracks and its stations have these tracks.", "quantifier": "all lists of ways, all files, all track rules, all orders of the hash map, all stations", "why_tests_cant": "The result depends on the order of a hash map of addresses and on all ways through a node.", "anchors": ["src/pfaedle/osm/OsmBuilder.cpp:readEdges, writeEdgeTracks, read", "src/pfaedle/osm/OsmReadOpts.h:EdgTracks", "src/pfaedle/trgraph/StatInfo.cpp:getTrack, setTrack"]}
{"id": "C87", "title": "From the command line to the feed that is written", "statement": "For every command line that asks to match one feed with an OSM file: if the program ends with exit code 0, the feed was written exactly once, as the last effect, to the path of -o (gtfs-out without it) or in place; every trip with two stops whose type is among those of -m and is named by a section of the configuration files (those of -c, or the installed ones), and that has no shape or whose shape is to be dropped, has a computed shape, every other trip is as in the input. The exit code is 0 whenever all sections can be read and name methods that exist, the feed and the OSM data can be read and the output can be written. A run with another exit code leaves no completely written feed; -h, -v and malformed command lines touch nothing. Graphs, transit graphs and statistics are written exactly if asked for; with -X, --overpass or --osmfilter only that output is produced, covering every asked type that a section names; with -T only the way of the trip.", "quantifier": "all argument vectors, all configuration files and sections, all feeds, all outcomes of reading and writing", "why_tests_cant": "The argument vectors, configurations and feeds are unbounded and their effects interact.", "anchors": ["src/pfaedle/PfaedleMain.cpp:main, getCfgPaths", "src/pfaedle/config/ConfigReader.cpp:read", "src/pfaedle/config/MotConfigReader.cpp:parse"]}
{"id": "C88", "title": "The statistics of a run", "statement": "With --stats (stats.json): num_tries, num_trie_leafs, dijkstra_iters, time_solve and num_edges_tot are the sums over the configurations that are used (of whose types one is selected) and nothing else; gtfs_avg_hop_dist is the average over all hops of these configurations, and undefined without hops; num_nodes_tot is the sum too, and graph_dimension has exactly one entry with the nodes and edges of each used configuration, if no two configurations are used for the same types (false otherwise: the entry then has the nodes of the last one and the edges of all). For a configuration, the trips counted are the selected ones of the feed, each group of trips has at least one trie, each trie at least one leaf, each leaf at least one trip, and with tries switched off a trie has exactly one leaf.", "quantifier": "all lists of configurations and selections of types, all graphs, feeds, interleavings of the clustering threads and hop distances", "why_tests_cant": "the totals depend on every subset of configurations and types and on every clustering of every feed", "anchors": ["src/pfaedle/PfaedleMain.cpp:main", "src/pfaedle/router/Stats.h:Stats", "src/pfaedle/router/ShapeBuilder.cpp:shapeify"]}
{"id": "C89", "title": "Which lines the files of the written feed have", "statement": "After a successful run that writes into a directory (its own, or in place) or an archive: agency.txt, stops.txt and, if the source has them, calendar.txt, calendar_dates.txt, transfers.txt, fare_attributes.txt, fare_rules.txt, pathways.txt, levels.txt and (if a trip has frequencies) frequencies.txt have the lines of the source; routes.txt and trips.txt have one line for each route and trip, the latter with the id of the trip's shape; feed_info.txt is written if publisher name and URL are known; attributions.txt names the OpenStreetMap contributors as producer; no other file changes. With the shapes of a whole run over all configurations: the shape a trip refers to in trips.txt is in shapes.txt with the points of a shape that serves the trip's stops, and stop_times.txt has the distances along it; trips that no configuration selects are as in the source. If the source can be read and no operation fails, the feed is written.", "quantifier": "all feeds, all lines of all files, all configurations, schedules and numbers of threads, source and target directories (also the same), all outcomes of file operations", "why_tests_cant": "the files depend on everything a run does, on every feed and every interleaving", "anchors": ["src/pfaedle/gtfs/Writer.cpp:write", "src/pfaedle/gtfs/Writer.cpp:writeTrips", "src/pfaedle/gtfs/Writer.cpp:writeAttribution", "src/pfaedle/gtfs/Writer.cpp:writeFeedInfo"]}
