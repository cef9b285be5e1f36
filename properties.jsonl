{"id": "C01", "title": "Building reaches exactly the reachable vertices", "statement": "When cru_built succeeds, the vertices of the returned graph are exactly those reachable from the initial vertex through the connections declared by the connector, with exactly one vertex for each equivalence class of the user's vertex equality, whatever the number of workers and their interleaving.", "quantifier": "every initial vertex, connector, hash/equality pair compatible with each other, number of workers >= 1 and thread schedule", "why_tests_cant": "A test run exercises one interleaving of the worker threads; the claim must hold for every interleaving, every number of workers and every user callback.", "anchors": ["src/build.c: _cru_building_task, _cru_built", "src/build.c: _cru_reached_new_node", "src/scatter.c", "man/man3/cru_built.3.in"]}
{"id": "C02", "title": "Building records exactly the declared edges", "statement": "When cru_built succeeds, a vertex of the result has an outgoing edge with label l to vertex w if and only if the connector declared, for that vertex, a connection with an equivalent label to an equivalent vertex; no two outgoing edges of one vertex have both equivalent labels and the same terminus.", "quantifier": "every connector, orders, number of workers and schedule", "why_tests_cant": "A test run exercises one interleaving of the worker threads; the claim must hold for every interleaving, every number of workers and every user callback.", "anchors": ["src/build.c: unique, _cru_building_task", "src/edges.c", "man/man7/cru_builder.7.in"]}
{"id": "C03", "title": "The connector runs exactly once per vertex", "statement": "During a successful build the connector is called exactly once for each vertex in the resulting graph and never for a discarded duplicate of a vertex.", "quantifier": "every connector, number of workers and schedule", "why_tests_cant": "A test run exercises one interleaving of the worker threads; the claim must hold for every interleaving, every number of workers and every user callback.", "anchors": ["src/build.c: _cru_building_task, _cru_reach_extant_node, _cru_reached_new_node", "man/man7/cru_builder.7.in"]}
{"id": "C04", "title": "Building neither leaks nor double-frees user data", "statement": "Every vertex handed to the library by cru_connect (and the initial vertex) ends up either as exactly one vertex of the returned graph or is passed to the vertex destructor exactly once, never both; the same for edge labels. At every moment of the build each of them is held in exactly one place.", "quantifier": "every connector, number of workers, and every intermediate point of every schedule", "why_tests_cant": "Leaks and double frees depend on which of several equal vertices arrives first, i.e. on the schedule; tests sample only a few.", "anchors": ["src/build.c: unique, _cru_reach_extant_node, _cru_reached_new_node, _cru_building_task"]}
{"id": "C05", "title": "Subconnectors run once per (incident label, vertex) combination", "statement": "With a subconnector, the subconnector is called exactly once for every reachable combination of a vertex and an equivalence class of labels on edges into it (plus once for the initial vertex without a label), and the outgoing edges of each vertex are the union of what those calls declared, without duplicates.", "quantifier": "every subconnector, orders, number of workers and schedule", "why_tests_cant": "A test run exercises one interleaving of the worker threads; the claim must hold for every interleaving, every number of workers and every user callback.", "anchors": ["src/build.c: _cru_reach_extant_node, _cru_building_task", "src/edges.c: _cru_deduplicated_edges", "man/man7/cru_builder.7.in"]}
{"id": "C06", "title": "Results do not depend on scheduling or on the number of workers", "statement": "Two successful builds from the same initial vertex with the same (deterministic) connector yield graphs equal up to vertex and label equivalence, even with different numbers of workers and different schedules.", "quantifier": "every pair of numbers of workers and every pair of schedules", "why_tests_cant": "A test run exercises one interleaving of the worker threads; the claim must hold for every interleaving, every number of workers and every user callback.", "anchors": ["src/build.c", "src/ports.c", "src/launch.c"]}
{"id": "C07", "title": "Vertex limit", "statement": "With a non-zero vertex limit L and n workers a build never succeeds with more than max(L,n) vertices, never reports CRU_INTOVF unless some worker owned at least max(1,L/n) distinct vertices, and with a limit of zero never reports CRU_INTOVF.", "quantifier": "every limit, number of workers, graph and schedule", "why_tests_cant": "Overflow detection depends on how hash values distribute vertices over the workers; tests can only sample distributions.", "anchors": ["src/build.c: _cru_building_task", "man/man7/cru_sig.7.in"]}
{"id": "C08", "title": "A failed build returns NULL with an error code and stays memory safe", "statement": "If building fails for any reason (user error, overflow, kill, memory), cru_built returns NULL and a non-zero error code, without undefined behaviour.", "quantifier": "every failure cause and failure point", "why_tests_cant": "Failure can occur at any allocation, any callback or any kill time; tests cannot enumerate them.", "anchors": ["src/entry.c: cru_built", "src/build.c: _cru_built", "man/man3/cru_built.3.in"]}
{"id": "C09", "title": "Quiescence is only declared when all work is done", "statement": "A traversal is declared complete only at a moment when every worker is idle and no packet is queued, buffered, deferred or in processing anywhere.", "quantifier": "every number of workers, every task behaviour, every interleaving of critical sections", "why_tests_cant": "A premature termination needs a rare interleaving of increments, decrements, signals and deliveries.", "anchors": ["src/sync.c: _cru_dwindled, _cru_swell, _cru_wait_for_quiescence", "src/ports.c: assigned, blocking_assignment, _cru_exchanged"]}
{"id": "C10", "title": "Packets are neither lost, duplicated nor misrouted", "statement": "Every packet sent during a traversal is processed exactly once, and by the worker selected by the packet's hash; at every moment the packets sent are exactly those processed plus those held in exactly one queue.", "quantifier": "every number of workers, every task behaviour, every interleaving", "why_tests_cant": "Loss or duplication needs a rare interleaving; exhausting interleavings by testing is impossible.", "anchors": ["src/ports.c: assigned, circulate, assignment, blocking_assignment, _cru_undefer", "src/pods.c", "src/scatter.c"]}
{"id": "C11", "title": "No deadlock", "statement": "As long as a traversal is not complete some worker can take a step: it never happens that all workers sleep while packets, including deferred ones, remain.", "quantifier": "every reachable state of the message passing protocol, every number of workers", "why_tests_cant": "Deadlocks show up only under specific interleavings.", "anchors": ["src/ports.c: blocking_assignment, circulate, _cru_undefer", "src/sync.c"]}
{"id": "C12", "title": "Waiting tolerates spurious wakeups", "statement": "The traversal protocol is correct (claims C09 and C10) even if pthread_cond_wait wakes up spuriously, as POSIX permits.", "quantifier": "every schedule including spurious wakeups", "why_tests_cant": "Spurious wakeups are almost never produced by the test platform.", "anchors": ["src/ports.c: blocking_assignment", "src/sync.c: _cru_wait_for_quiescence"]}
{"id": "C13", "title": "Routing is total, in range and a function of the hash", "statement": "Each hash value selects exactly one worker, with an index below the number of workers, whatever the (non-zero) number of workers; equal hashes always select the same worker. The default hash used for scalars and pointers maps distinct 64-bit words to distinct 64-bit words.", "quantifier": "every 64-bit hash value and every number of workers from 1 up to the thread limit", "why_tests_cant": "2^64 hashes cannot be enumerated.", "anchors": ["src/ports.h: MOD", "src/repl.c: _cru_scalar_hash", "src/launch.c"]}
{"id": "C14", "title": "Counting is exact and schedule independent", "statement": "cru_vertex_count, cru_edge_count and cru_terminus_count return the number of vertices, the number of edges, and the number of vertices without outgoing edges of the graph, whatever the number of workers and schedule.", "quantifier": "every finite graph (cyclic or not), every number of workers and schedule", "why_tests_cant": "A test run exercises one interleaving of the worker threads; the claim must hold for every interleaving, every number of workers and every user callback.", "anchors": ["src/count.c", "src/launch.c: _cru_count_launched", "man/man3/cru_vertex_count.3.in"]}
{"id": "C15", "title": "Traversals visit every reachable vertex exactly once", "statement": "Any operation that applies a per-vertex action over a whole graph or zone applies it to each vertex reachable from the starting vertex along the chosen direction exactly once and to no other vertex, and terminates on every finite graph.", "quantifier": "every finite graph, direction, starting vertex, number of workers and schedule", "why_tests_cant": "A test run exercises one interleaving of the worker threads; the claim must hold for every interleaving, every number of workers and every user callback.", "anchors": ["src/count.c", "src/props.c", "src/filters.c", "src/mapreduce.c", "src/graph.c"]}
{"id": "C16", "title": "Map-reduce", "statement": "cru_mapreduced maps each vertex in the zone exactly once and combines the results with the user's reduction in some binary tree over them; if the reduction is associative and commutative the result equals the sequential fold of the mapped values, whatever the number of workers and schedule. The vacuous case is returned only when there is nothing to map.", "quantifier": "every graph, mapping, reduction, number of workers and schedule", "why_tests_cant": "A test run exercises one interleaving of the worker threads; the claim must hold for every interleaving, every number of workers and every user callback.", "anchors": ["src/mapreduce.c", "src/launch.c: _cru_maybe_reduction_launched", "src/maybe.c", "man/man3/cru_mapreduced.3.in"]}
{"id": "C17", "title": "Fold over edges", "statement": "A cru_fold over the edges at a vertex yields the vacuous case if there are no edges and otherwise combines the image of each edge exactly once using the reduction; every intermediate result is passed to the applicable destructor exactly once and the returned result is not destroyed.", "quantifier": "every list of edges, every fold specification", "why_tests_cant": "The result must hold for all callbacks, edge orders and list lengths.", "anchors": ["src/edges.c: _cru_reduced_edges", "man/man7/cru_fold.7.in"]}
{"id": "C18", "title": "Vertex properties", "statement": "A cru_prop computes, for each vertex, vertex.map(incident result, vertex, outgoing result) where the incident and outgoing results are the folds over the edges in each direction, defaulting as documented when operators are omitted.", "quantifier": "every vertex, adjacency and prop specification", "why_tests_cant": "Combinations of omitted operators and adjacency shapes are unbounded.", "anchors": ["src/nodes.c: _cru_mapped_node", "man/man7/cru_prop.7.in"]}
{"id": "C19", "title": "Induction computes the recursive definition", "statement": "On a graph whose zone is acyclic, cru_induced returns the value at the starting vertex of the unique function assigning the boundary value to vertices without prerequisites and, to any other vertex, the fold over its edges of the values at its prerequisites, whatever the number of workers and schedule.", "quantifier": "every finite acyclic graph, fold, boundary function, number of workers and schedule", "why_tests_cant": "A test run exercises one interleaving of the worker threads; the claim must hold for every interleaving, every number of workers and every user callback.", "anchors": ["src/induce.c", "man/man3/cru_induced.3.in"]}
{"id": "C20", "title": "Order constrained mutation visits prerequisites first", "statement": "In a mutation with a local_first or remote_first plan each vertex in the zone is mutated exactly once, and only after all of its prerequisites in the zone have been mutated; vertices outside the zone are unchanged; the result is independent of the schedule.", "quantifier": "every finite graph with acyclic zone, plan, kernel, number of workers and schedule", "why_tests_cant": "A test run exercises one interleaving of the worker threads; the claim must hold for every interleaving, every number of workers and every user callback.", "anchors": ["src/mutate.c", "src/zones.c: _cru_visitable", "man/man7/cru_plan.7.in"]}
{"id": "C21", "title": "Filtering keeps what is retained and still reachable", "statement": "After cru_filtered the vertices are exactly those reachable from the base via retained vertices and retained edges, and the edges exactly the retained edges among them; if the base vertex is rejected the result is the empty graph; each removed vertex and label is destroyed exactly once.", "quantifier": "every graph, filter without a zone or thinner, with edges tested individually or jointly, number of workers and schedule", "why_tests_cant": "A test run exercises one interleaving of the worker threads; the claim must hold for every interleaving, every number of workers and every user callback.", "anchors": ["src/filters.c: _cru_filtered, node_filtering_task, edge_filtering_task, pruning_task, _cru_pruned", "man/man3/cru_filtered.3.in"]}
{"id": "C22", "title": "Merging produces the quotient graph", "statement": "cru_merged yields one vertex per equivalence class of the classifier's property (restricted to the reachable ones), being the reduction over the members of that class, and an edge from class A to class B exactly when some member of A had an edge to some member of B (before pruning).", "quantifier": "every graph, classifier, kernel, number of workers and schedule", "why_tests_cant": "A test run exercises one interleaving of the worker threads; the claim must hold for every interleaving, every number of workers and every user callback.", "anchors": ["src/merge.c: vertex_merging_task, edge_merging_task, fused_edges", "man/man3/cru_merged.3.in"]}
{"id": "C23", "title": "The pruner's flag is exact", "statement": "In cru_merged the pruner is called with a non-zero flag for a label exactly when every member of the class has an outgoing edge with an equivalent label, and edges are kept exactly when the pruner returns non-zero.", "quantifier": "every class of vertices and every multiset of edge labels", "why_tests_cant": "Needs all combinations of multiplicities across members.", "anchors": ["src/merge.c: fused_edges, filter_edges", "src/table.c: _cru_record_edge, _cru_merge, _cru_multiplicity", "man/man7/cru_merger.7.in"]}
{"id": "C24", "title": "Partitions reflect the classifier", "statement": "After cru_partition_of, cru_class_of returns the same class for two vertices if and only if their properties are equal, and cru_class_size of a class is the number of vertices in it.", "quantifier": "every graph, classifier, number of workers and schedule", "why_tests_cant": "A test run exercises one interleaving of the worker threads; the claim must hold for every interleaving, every number of workers and every user callback.", "anchors": ["src/classes.c: classifying_task, cru_class_of, cru_class_size", "man/man3/cru_partition_of.3.in"]}
{"id": "C25", "title": "Uniting classes computes the generated equivalence", "statement": "After any sequence of cru_united calls on classes of a partition, two vertices have the same cru_class_of exactly when they are related by the smallest equivalence containing the original classes and the united pairs; cru_united of valid classes returns a non-zero value and has no effect if they are already the same.", "quantifier": "every partition and every finite sequence of unions and look-ups", "why_tests_cant": "The union-find state depends on the whole history.", "anchors": ["src/classes.c: cru_united, cru_class_of", "man/man3/cru_united.3.in"]}
{"id": "C26", "title": "Class sizes after uniting", "statement": "After cru_united, cru_class_size of the united class is the number of vertices belonging to it.", "quantifier": "every partition and sequence of unions", "why_tests_cant": "Depends on histories of unions.", "anchors": ["src/classes.c: cru_class_size, cru_united", "man/man3/cru_class_size.3.in"]}
{"id": "C27", "title": "Composition adds exactly the qualifying bypass edges", "statement": "One pass of non-destructive cru_composed retains all edges and adds, for every two consecutive edges that satisfy the composition predicate, an edge with the composite label from the first origin to the second terminus, no other edges, and no duplicates; vertices are unchanged. Independent of the schedule.", "quantifier": "every graph, composer, number of workers and schedule", "why_tests_cant": "A test run exercises one interleaving of the worker threads; the claim must hold for every interleaving, every number of workers and every user callback.", "anchors": ["src/compose.c: compose, composing_task, bypassed", "man/man3/cru_composed.3.in"]}
{"id": "C28", "title": "Destructive composition deletes only launching edges", "statement": "With the destructive option the edges deleted are exactly those that were the first of a qualifying pair of consecutive edges.", "quantifier": "every graph and composer", "why_tests_cant": "Needs coincidences of label values across edges of a vertex.", "anchors": ["src/compose.c: compose, bypassed", "man/man7/cru_composer.7.in"]}
{"id": "C29", "title": "Splitting", "statement": "cru_split replaces every fissile vertex by its ana and cata vertices and every edge by exactly those copies which the inward and outward labelers request, evaluated on the original vertices and properties; other vertices keep their value.", "quantifier": "every graph, splitter, number of workers and schedule", "why_tests_cant": "A test run exercises one interleaving of the worker threads; the claim must hold for every interleaving, every number of workers and every user callback.", "anchors": ["src/split.c: fan_out, fan_in, splitting_task", "man/man3/cru_split.3.in"]}
{"id": "C30", "title": "Postponement moves edges without losing vertices", "statement": "One pass of cru_postponed removes a movable edge exactly if some stationary sibling qualifies, adding for each qualifying sibling an edge with the combined label from the sibling's terminus to the moved edge's terminus; every vertex remains reachable from the base vertex. Independent of the schedule.", "quantifier": "every graph, postponer, number of workers and schedule", "why_tests_cant": "A test run exercises one interleaving of the worker threads; the claim must hold for every interleaving, every number of workers and every user callback.", "anchors": ["src/postpone.c: bipartition, postponed, absorbing_task", "man/man3/cru_postponed.3.in"]}
{"id": "C31", "title": "Spreading", "statement": "cru_spread leaves the existing vertices and the edges of non-terminal vertices unchanged, and connects each terminal vertex (and transitively each new vertex) to exactly what the connector declares, fusing vertices equal to existing ones.", "quantifier": "every graph, builder, number of workers and schedule", "why_tests_cant": "A test run exercises one interleaving of the worker threads; the claim must hold for every interleaving, every number of workers and every user callback.", "anchors": ["src/spread.c", "man/man3/cru_spread.3.in"]}
{"id": "C32", "title": "Stretching", "statement": "One pass of cru_stretch replaces each edge for which the expander declares a path by the declared connections, keeps the other edges, and fuses interposed vertices equal to existing ones.", "quantifier": "every graph, stretcher, number of workers and schedule", "why_tests_cant": "A test run exercises one interleaving of the worker threads; the claim must hold for every interleaving, every number of workers and every user callback.", "anchors": ["src/stretch.c", "man/man3/cru_stretched.3.in"]}
{"id": "C33", "title": "Deduplication", "statement": "cru_deduplicated yields a graph with exactly one vertex for each class of equal vertices, with an edge between two classes per label class exactly when the original had one.", "quantifier": "every graph, number of workers and schedule", "why_tests_cant": "A test run exercises one interleaving of the worker threads; the claim must hold for every interleaving, every number of workers and every user callback.", "anchors": ["src/duplex.c", "src/merge.c", "man/man3/cru_deduplicated.3.in"]}
{"id": "C34", "title": "Crossing", "statement": "cru_cross yields a graph having one vertex v_prod(l,r) for each pair of a left and right vertex reachable from the pair of base vertices by paths of pairwise compatible edges, with an edge labelled by the combined label for each compatible pair of edges; the originals are unchanged.", "quantifier": "every pair of graphs, crosser, number of workers and schedule", "why_tests_cant": "A test run exercises one interleaving of the worker threads; the claim must hold for every interleaving, every number of workers and every user callback.", "anchors": ["src/cross.c", "man/man3/cru_crossed.3.in"]}
{"id": "C35", "title": "Fabrication is an isomorphism", "statement": "cru_fabricated calls v_fab exactly once per vertex and e_fab exactly once per edge and returns a graph isomorphic to the given one through them, whatever the schedule; the given graph is unchanged.", "quantifier": "every graph, fabricator, number of workers and schedule", "why_tests_cant": "A test run exercises one interleaving of the worker threads; the claim must hold for every interleaving, every number of workers and every user callback.", "anchors": ["src/fab.c", "man/man3/cru_fabricated.3.in"]}
{"id": "C36", "title": "A killed operation reports CRU_INTKIL and returns NULL", "statement": "If cru_kill takes effect while a library function is running on that kill switch, the function returns NULL and reports CRU_INTKIL.", "quantifier": "every operation, every time of the kill", "why_tests_cant": "The kill can hit between any two packets of any pass.", "anchors": ["src/killers.c", "src/route.c: _cru_reset, _cru_free_router", "src/launch.c", "man/man3/cru_kill.3.in"]}
{"id": "C37", "title": "A late kill has no effect", "statement": "Calling cru_kill after the library function using the kill switch has finished has no effect on later functions using it.", "quantifier": "every sequence of operations and kills on a kill switch", "why_tests_cant": "Depends on histories and races.", "anchors": ["src/killers.c: cru_kill, _cru_enable_killing, _cru_disable_killing", "man/man3/cru_kill.3.in"]}
{"id": "C38", "title": "A pending kill is delivered", "statement": "A cru_kill issued before the operation reaches its waiting point is not lost: the operation is killed once it gets there, and at most one operation is killed per request.", "quantifier": "every interleaving of cru_kill with starting and finishing operations", "why_tests_cant": "Needs rare interleavings.", "anchors": ["src/killers.c"]}
{"id": "C39", "title": "The first error is reported and stops further callbacks", "statement": "If several errors occur within one worker, the reported code is that of the first one; user callbacks guarded by the error status are not called after an error was recorded. The operation's reported error is one that really occurred in some worker.", "quantifier": "every sequence of callback outcomes", "why_tests_cant": "Sequences of failures are unbounded.", "anchors": ["src/errs.h: RAISE, CALLED, PASSED, FAILED", "src/route.c"]}
{"id": "C40", "title": "Fallback containers agree with the Judy based ones", "statement": "The set, multiset and map containers used when the Judy library is absent give the same observable answers as mathematical sets, multisets and maps for every history of operations.", "quantifier": "every history of insertions, deletions and look-ups", "why_tests_cant": "Histories are unbounded.", "anchors": ["src/emu.c", "src/table.c"]}
{"id": "C41", "title": "Duplicate vertices in a partition are reported", "statement": "cru_partition_of reports CRU_PARDPV if two vertices of the graph are identical values, with or without the Judy library.", "quantifier": "every graph", "why_tests_cant": "Only visible in one build configuration.", "anchors": ["src/emu.c: _cru_associate_nj", "src/table.c: _cru_associate"]}
{"id": "C42", "title": "Freeing a graph frees everything exactly once", "statement": "cru_free_now destroys every vertex and every edge label of the graph exactly once, whatever the schedule and the shape of the graph.", "quantifier": "every finite graph, number of workers and schedule", "why_tests_cant": "A test run exercises one interleaving of the worker threads; the claim must hold for every interleaving, every number of workers and every user callback.", "anchors": ["src/graph.c: _cru_freeing_task, _cru_free_now"]}
{"id": "C43", "title": "Packet storage is conserved", "statement": "Packet allocation and retirement with the per-thread reserve never hands out a packet in use, never loses one, and the reserve never exceeds its limit.", "quantifier": "every history of allocations and retirements", "why_tests_cant": "Histories are unbounded.", "anchors": ["src/pack.c"]}
{"id": "C44", "title": "Accepted specifications are complete", "statement": "If the library accepts a specification structure, every user callback it may invoke is defined (given or defaulted); if it rejects it, the documented error code for a really missing or incompatible operator is reported.", "quantifier": "every combination of given and omitted operators", "why_tests_cant": "Combinations are exponentially many.", "anchors": ["src/defo.c", "src/infer.c"]}
{"id": "C45", "title": "Full duplexing adds exactly the inverse edges", "statement": "The incident edges presented to user code at a vertex are exactly the edges of the graph that lead to it, each once, with its label and origin; removing them restores the graph.", "quantifier": "every graph, number of workers and schedule", "why_tests_cant": "A test run exercises one interleaving of the worker threads; the claim must hold for every interleaving, every number of workers and every user callback.", "anchors": ["src/duplex.c: _cru_full_duplexing_task, _cru_half_duplexing_task"]}
{"id": "C46", "title": "Edge classes and brigades", "statement": "When edges are grouped by terminus, label class or property class, each group holds exactly the edges of that group, each once, and deduplication leaves exactly one edge per label class and terminus.", "quantifier": "every list of edges, hash and equality", "why_tests_cant": "Must hold for all inputs including hash collisions.", "anchors": ["src/brig.c", "src/edges.c: _cru_deduplicated_edges"]}
{"id": "C47", "title": "Workers are released at the end", "statement": "After a traversal is complete and the router is dismissed, every worker thread returns: none remains blocked.", "quantifier": "every interleaving of dismissal with workers going to sleep", "why_tests_cant": "A lost signal needs a rare interleaving.", "anchors": ["src/sync.c: _cru_dismiss", "src/ports.c: blocking_assignment", "src/crew.c"]}
{"id": "C48", "title": "Deferred work is eventually retried and never lost", "statement": "A packet deferred because its prerequisites are not yet visited remains in the system, is offered again to the same worker whenever no other progress is possible, and the traversal does not end while it is pending.", "quantifier": "every schedule of an order constrained traversal", "why_tests_cant": "A test run exercises one interleaving of the worker threads; the claim must hold for every interleaving, every number of workers and every user callback.", "anchors": ["src/ports.c: circulate, _cru_undefer", "src/mutate.c", "src/induce.c"]}
{"id": "C49", "title": "Thinning keeps exactly the optimal edges", "statement": "A filter with a thinner and no zone retains, at each vertex reached for which the vertex test returns NULL or is absent, exactly one of the edges that pass the edge test, and it is minimal among them for the user's relation; if edges are tested jointly by classes of labels, it retains exactly one of the passing classes, whole and minimal. No edge is retained there if none passes, and all are retained at other vertices.", "quantifier": "every graph, filter with a thinner, number of workers, schedule, and strict or total order of edges", "why_tests_cant": "Must hold for all edge lists and orders.", "anchors": ["src/filters.c", "man/man7/cru_filter.7.in"]}
{"id": "C50", "title": "Iteration to a fixed point stops only at a fixed point", "statement": "With the exhaustive iteration option (po_fix, co_fix, st_fix) the operation returns only when another pass would add no edges, or create no vertices in the case of st_fix.", "quantifier": "every graph and specification for which the iteration terminates", "why_tests_cant": "Number of iterations unbounded.", "anchors": ["src/postpone.c", "src/compose.c", "src/stretch.c: _cru_stretched", "man/man3/cru_stretched.3.in"]}
{"id": "C51", "title": "Freeing a partition frees every class once", "statement": "cru_free_partition frees every class of the partition exactly once and uses no class after it is freed, whatever the number of vertices in each class.", "quantifier": "every graph, classifier, number of workers and schedule", "why_tests_cant": "The reference counts must match the entries of the maps for all class sizes and distributions over workers.", "anchors": ["src/classes.c: cru_free_partition, _cru_free_class"]}
{"id": "C52", "title": "Filtering is confined to its zone", "statement": "A filter with a zone tests and rejects only vertices within the zone, removes every vertex of the zone that it rejects, and reports no error unless the user's tests do.", "quantifier": "every graph, filter with a forward or backward zone, number of workers and schedule", "why_tests_cant": "A test run exercises one interleaving of the worker threads; the claim must hold for every interleaving, every number of workers and every user callback.", "anchors": ["src/filters.c: _cru_filtered, edge_filtering_task", "src/zones.c: _cru_initial_node", "src/edges.c", "man/man7/cru_filter.7.in", "man/man7/cru_zone.7.in"]}
{"id": "C53", "title": "Edges to rejected vertices are not tested", "statement": "When edges are tested jointly by classes of labels, only the edges connecting retained vertices are tested, so a class consists of such edges.", "quantifier": "every graph, filter with an order, number of workers and schedule", "why_tests_cant": "A test run exercises one interleaving of the worker threads; the claim must hold for every interleaving, every number of workers and every user callback.", "anchors": ["src/filters.c: edge_filtering_task", "man/man7/cru_filter.7.in"]}
{"id": "C54", "title": "A failed operation returns nothing", "statement": "A library function that is meant to return a new graph or partition returns NULL if it reports an error.", "quantifier": "every operation, graph, number of workers and schedule", "why_tests_cant": "A test run exercises one interleaving of the worker threads; the claim must hold for every interleaving, every number of workers and every user callback.", "anchors": ["src/classes.c: _cru_partition_of", "man/man3/cru_partition_of.3.in"]}
{"id": "C55", "title": "The last function given a kill switch can be killed", "statement": "If a kill switch is passed to several library functions at a time, the last one to which it is passed is the one that is killed by cru_kill.", "quantifier": "every number of concurrent functions and interleaving", "why_tests_cant": "Depends on races.", "anchors": ["src/killers.c", "man/man3/cru_kill.3.in"]}
{"id": "C56", "title": "Mutations are rejected exactly if they leave a graph that can not be freed", "statement": "A mutation is rejected with CRU_TPCMUT if and only if it changes a destructor and its zone does not cover the graph.", "quantifier": "every graph, mutator, zone, number of workers and schedule", "why_tests_cant": "The check involves the zone, the destructors of the graph and those of the mutator.", "anchors": ["src/mutate.c: _cru_mutated, coverage_analyzing_task", "src/graph.c: _cru_compatible", "man/man7/cru_plan.7.in", "man/man7/cru_zone.7.in"]}
{"id": "C57", "title": "Mutations without an order are restricted to the zone", "statement": "In a mutation whose plan asks for no order, only vertices in the zone are mutated.", "quantifier": "every graph, plan, kernel, number of workers and schedule", "why_tests_cant": "A test run exercises one interleaving of the worker threads; the claim must hold for every interleaving, every number of workers and every user callback.", "anchors": ["src/zones.c: _cru_initial_node", "src/mutate.c", "man/man7/cru_plan.7.in"]}
{"id": "C58", "title": "A failed mutation frees the graph", "statement": "If cru_mutated reports an error and returns NULL, the graph has been freed.", "quantifier": "every graph, mutator, error, and time of being killed", "why_tests_cant": "The kill can hit any pass.", "anchors": ["src/mutate.c: _cru_mutated, propagate", "src/route.c: _cru_free_router"]}
{"id": "C59", "title": "The default classifier of a merger separates all vertices", "statement": "If the merger given to cru_merged has neither a classifier nor a vertex operation, every vertex is in a class by itself, so that the vertices are unchanged.", "quantifier": "every graph, number of workers and schedule", "why_tests_cant": "Depends on the values of the vertices.", "anchors": ["src/merge.c: vertex_merging_task, fuse_vertices", "src/infer.c: inferred_merger", "man/man7/cru_merger.7.in"]}
{"id": "C60", "title": "The vertex operation of a merger may depend on incoming edges", "statement": "The vertex operation of a merger may have a fold over incident edges, by the usual conventions of cru_prop, and the function returns either a graph or an error.", "quantifier": "every graph, merger, number of workers and schedule", "why_tests_cant": "The field that holds the incoming edges is shared with a mark.", "anchors": ["src/merge.c: vertex_merging_task", "src/nodes.c: mapped_node", "man/man3/cru_merged.3.in"]}
{"id": "C61", "title": "The vertex operation of a merger may depend on outgoing edges", "statement": "If the vertex operation of a merger has a fold over outgoing edges, the operands are the given vertices, whatever the order in which classes are reduced.", "quantifier": "every graph, merger, number of workers and schedule", "why_tests_cant": "A test run exercises one interleaving of the worker threads; the claim must hold for every interleaving, every number of workers and every user callback.", "anchors": ["src/merge.c: fuse_vertices", "src/nodes.c: mapped_node", "man/man7/cru_prop.7.in"]}
{"id": "C62", "title": "Deduplication loses nothing from deterministic graphs", "statement": "If edges with equal labels from equal vertices lead to equal vertices, or if all vertices are different, then every vertex and every edge of the given graph has an equal one in the result of cru_deduplicated.", "quantifier": "every such graph, number of workers and schedule", "why_tests_cant": "A test run exercises one interleaving of the worker threads; the claim must hold for every interleaving, every number of workers and every user callback.", "anchors": ["src/duplex.c: deduplicating_task, graft", "src/edges.c: _cru_repeating_labels", "man/man3/cru_deduplicated.3.in"]}
{"id": "C63", "title": "Deduplication frees exactly what is not in the result", "statement": "When cru_deduplicated succeeds, every vertex and every edge label of the given graph is either in the result or destroyed, and none is destroyed twice.", "quantifier": "every graph, number of workers and schedule", "why_tests_cant": "A test run exercises one interleaving of the worker threads; the claim must hold for every interleaving, every number of workers and every user callback.", "anchors": ["src/duplex.c: deduplicating_task, graft", "src/route.c: _cru_sweep", "src/stretch.c: _cru_pruning_task"]}
{"id": "C64", "title": "The results of mutations and merging have the documented orders", "statement": "If a mutator's or merger's vertex or edge operation has no destructor for its results, the graph made has a default scalar ordering of its vertices or edges.", "quantifier": "every mutator, merger and signature of a graph", "why_tests_cant": "Combinations are exponentially many.", "anchors": ["src/infer.c: inferred_sig, _cru_inferred_merger", "man/man7/cru_mutator.7.in", "man/man7/cru_merger.7.in"]}
{"id": "C65", "title": "The vertex limit stays with a graph", "statement": "The vertex limit associated with a graph during its creation still applies to the graphs made from it by mutation, merging, stretching and splitting.", "quantifier": "every mutator, merger, stretcher, splitter and signature", "why_tests_cant": "Combinations are exponentially many.", "anchors": ["src/infer.c: inferred_sig", "src/stretch.c", "src/split.c", "man/man7/cru_stretcher.7.in", "man/man7/cru_splitter.7.in"]}
{"id": "C66", "title": "No undefined comparison is ever called after a history of operations", "statement": "After any sequence of building, crossing, fabricating, mutating, merging, deduplicating, stretching and splitting, stretching and splitting are accepted only if all comparisons they use are defined, and are not rejected for a missing ordering if vertices and edges are scalars.", "quantifier": "every finite history of operations", "why_tests_cant": "Histories are unbounded.", "anchors": ["src/infer.c: inferred_sig", "src/defo.c: _cru_filled_sig"]}
{"id": "C67", "title": "The operands of a composer are as documented", "statement": "The third operand of the composition predicate and operator is the adjacent property of the intermediate vertex, so that a bypass edge is created if and only if the predicate holds of the local property of the first vertex, the two labels, and that property.", "quantifier": "every graph, composer, number of workers and schedule", "why_tests_cant": "Depends on the values of the properties.", "anchors": ["src/compose.c: compose", "man/man7/cru_composer.7.in", "man/man7/cru_prop_pair.7.in"]}
{"id": "C68", "title": "Vertex properties in a composition may depend on incoming edges", "statement": "Each property in a composer may depend on the vertex, its edges and its adjacent vertices in either direction, according to the usual conventions of cru_prop.", "quantifier": "every graph, composer, number of workers and schedule", "why_tests_cant": "The graph is changed from full to half duplex before the properties are computed.", "anchors": ["src/compose.c: _cru_composed", "src/nodes.c: mapped_node", "man/man7/cru_prop_pair.7.in"]}
{"id": "C69", "title": "A killed postponement reclaims the whole graph", "statement": "When cru_postponed is killed and returns no graph, every vertex and every edge label of the given graph and of edges made in the meantime has been reclaimed.", "quantifier": "every graph, postponer, number of workers, schedule and time of the request", "why_tests_cant": "Depends on when a request is noticed.", "anchors": ["src/postpone.c: absorbing_task, _cru_postpone", "src/entry.c: cru_postponed, cru_free_now", "src/nodes.c: _cru_free_nodes", "man/man3/cru_postponed.3.in"]}
{"id": "C70", "title": "Properties of the vertices made by splitting", "statement": "The properties of both vertices that replace a fissile vertex are computed from the new vertices as if their incident and outgoing edges were those of the vertex being replaced, whatever the schedule.", "quantifier": "every graph, splitter, number of workers and schedule", "why_tests_cant": "The property depends on vertices that are being replaced by other workers at the same time.", "anchors": ["src/split.c: fan_out, fan_in", "src/props.c: _cru_propped", "man/man7/cru_splitter.7.in"]}
{"id": "C71", "title": "The vertex limit of a splitting or stretching", "statement": "An error is reported if the number of vertices reaches or exceeds the vertex limit, detected when any worker creates a number of vertices attaining the limit divided by the number of workers.", "quantifier": "every graph, splitter or stretcher, vertex limit, number of workers and schedule", "why_tests_cant": "Which worker receives a vertex depends on its address, and how many on the graph.", "anchors": ["src/split.c: splitting_task", "src/stretch.c: grown", "man/man7/cru_sig.7.in"]}
{"id": "C72", "title": "Stretching uses no memory after it is freed", "statement": "No edge or vertex is used by cru_stretched after it has been freed, whatever vertices and edges the expander declares.", "quantifier": "every graph, stretcher, number of workers and schedule", "why_tests_cant": "An edge that is redundant is freed while packets that refer to it are stored or on their way.", "anchors": ["src/stretch.c: grown, graft, overwrite, stretching_task", "src/table.c: _cru_redirect", "src/edges.c: _cru_deduplicated_edges"]}
{"id": "C73", "title": "Stretching reclaims every vertex that is not in the result", "statement": "When cru_stretched returns, every vertex that was in the graph or made in the meantime is either in the result or reclaimed, and there is no result if there is an error.", "quantifier": "every graph, stretcher, number of workers, schedule and time of being killed", "why_tests_cant": "Depends on when vertices become unreachable and when a request is noticed.", "anchors": ["src/stretch.c: _cru_stretched, stretching_task, _cru_pruning_task", "src/route.c: _cru_sweep"]}
{"id": "C74", "title": "Spreading does not change vertices that have edges", "statement": "Any vertex of the graph given to cru_spread that has any outgoing edges before acquires no additional outgoing edges.", "quantifier": "every graph, builder, number of workers and schedule", "why_tests_cant": "Depends on edges declared elsewhere and on the schedule.", "anchors": ["src/spread.c: spreading_task", "man/man3/cru_spread.3.in"]}
{"id": "C75", "title": "Spreading passes each vertex without edges to the connector", "statement": "Any vertex in the graph lacking outgoing edges at the time cru_spread is called, and any new vertex created afterwards, is passed to the connector or subconnector once.", "quantifier": "every graph, builder, number of workers and schedule", "why_tests_cant": "A test run exercises one interleaving of the worker threads; the claim must hold for every interleaving, every number of workers and every user callback.", "anchors": ["src/spread.c: spreading_task, _cru_spread", "man/man3/cru_spread.3.in"]}
{"id": "C76", "title": "Spreading is independent of the schedule", "statement": "The graph returned by cru_spread is determined up to isomorphism by the given graph and the builder, whether it has a connector or a subconnector.", "quantifier": "every graph, builder, number of workers and schedule", "why_tests_cant": "A test run exercises one interleaving of the worker threads; the claim must hold for every interleaving, every number of workers and every user callback.", "anchors": ["src/spread.c: spreading_task"]}
{"id": "C77", "title": "Spreading does not repeat edges", "statement": "As in a graph made by cru_built, no vertex connected by cru_spread has two outgoing edges with equal labels to the same vertex.", "quantifier": "every graph, builder, number of workers and schedule", "why_tests_cant": "A test run exercises one interleaving of the worker threads; the claim must hold for every interleaving, every number of workers and every user callback.", "anchors": ["src/spread.c: spreading_task", "src/edges.c: _cru_deduplicated_edges"]}
{"id": "C78", "title": "A killed spreading returns", "statement": "When the kill switch of cru_spread is thrown at any time, it returns after finitely many steps of the workers and it is not reported to be successful with an incomplete graph.", "quantifier": "every graph, builder, number of workers, schedule and time of being killed", "why_tests_cant": "Depends on when a request is noticed.", "anchors": ["src/spread.c: _cru_prespreading_task, _cru_spread", "man/man3/cru_spread.3.in"]}
{"id": "C79", "title": "Global errors are logged and printed", "statement": "Errors thrown outside of any operation are recorded in the order they are thrown, not repeating the same error right after itself, at most as many as fit in the log. When the process exits those recorded are printed, followed by the number of further errors. No memory other than the log is accessed.", "quantifier": "every sequence of errors thrown", "why_tests_cant": "Internal errors and failures of the thread library don't occur in tests, and many in one process even less.", "anchors": ["src/errs.c: _cru_globally_throw, _cru_close_errs"]}
{"id": "C80", "title": "Packets of an aborted worker are consumed", "statement": "When a worker can't start building a graph, it consumes all packets sent to it, and each vertex of a packet that no node owns is freed exactly once, whichever way the program is compiled.", "quantifier": "every sequence of batches of packets and order of evaluation of arguments", "why_tests_cant": "The order of evaluation of arguments depends on the compiler.", "anchors": ["src/ports.c: _cru_abort_new_packets"]}
{"id": "C81", "title": "Failures to start building are clean", "statement": "If the workers of cru_built can't be started, the error is reported, nothing is returned, the initial vertex is freed, and the router is freed once and not used afterwards.", "quantifier": "every outcome of starting the workers and of the work", "why_tests_cant": "Threads can be created in tests.", "anchors": ["src/build.c: _cru_built", "src/launch.c: _cru_graph_launched"]}
{"id": "C82", "title": "Callbacks find the attribute and the state of their own operation", "statement": "When called from within a callback function of an operation on a graph, cru_get returns the attribute of that graph and cru_killed tells whether that operation has been killed. When called elsewhere they return NULL and 0. This holds whatever other operations there are, including those that callback functions invoke.", "quantifier": "every history of threads, operations and calls", "why_tests_cant": "Interference between operations depends on how threads are used; most callbacks don't use attributes.", "anchors": ["src/getset.c: _cru_set_storage, _cru_set_kill_switch", "src/entry.c: cru_get, cru_killed", "man/man3/cru_get.3.in"]}
{"id": "C83", "title": "Edges are declared in the context of a connector", "statement": "cru_connect is out of context (CRU_INTOOC) unless called by a worker that calls callback functions of a builder, and the edges declared by it during the call of a connector or subconnector are exactly those gathered for that call, regardless of the calls in other threads.", "quantifier": "every history of threads, operations and calls", "why_tests_cant": "Interference depends on the schedule.", "anchors": ["src/entry.c: cru_connect", "src/getset.c: _cru_set_context, _cru_set_edges", "src/build.c: _cru_building_task"]}
{"id": "C84", "title": "Traversals that put packets back come to an end", "statement": "If no thread is neglected forever, a traversal whose packets may be put back until others have been processed ends with all packets processed and all workers gone, provided that in every situation some packet can be processed and that it takes finitely many steps to process them in any order. This applies to inductions over zones without cycles and to mutations.", "quantifier": "every fair schedule, every number of workers and every task", "why_tests_cant": "Schedules are infinite; a worker that keeps examining a packet is hard to tell from one that makes progress.", "anchors": ["src/ports.c: circulate, _cru_undefer, blocking_assignment", "src/sync.c: _cru_wait_for_quiescence", "src/mutate.c", "src/induce.c"]}
{"id": "C85", "title": "Locked accesses to shared memory are atomic", "statement": "Reading a pointer by _cru_read yields the value most recently written to it by _cru_write or _cru_unlock_for_reading, or its original value, even though assignments proceed by halves and different pointers may share a lock. Between _cru_lock_for_writing and _cru_unlock_for_reading nobody else reads or writes the pointer. Each thread makes its accesses in the order of its program.", "quantifier": "every number of threads, every program of accesses, every assignment of locks to pointers and every schedule", "why_tests_cant": "Data races depend on the schedule, and torn values don't occur on the usual machines.", "anchors": ["src/cthread.c: _cru_read, _cru_write, _cru_lock_for_writing, _cru_unlock_for_reading, LOCK_POOL_SIZE", "src/mutate.c: mutate"]}
{"id": "C86", "title": "The lock pool doesn't cause deadlocks", "statement": "Threads that access shared pointers by way of the lock pool, and wait only for threads started by them, all come to an end, whatever they do while a location is locked for writing.", "quantifier": "every number of threads, every program of accesses and every schedule", "why_tests_cant": "A deadlock requires two pointers with hashes that are congruent modulo the number of locks.", "anchors": ["src/cthread.c: _cru_read, _cru_write, _cru_lock_for_writing, _cru_unlock_for_reading, LOCK_POOL_SIZE", "src/mutate.c: mutate, permeate"]}
{"id": "C87", "title": "Declarations of a stretcher are installed or reclaimed", "statement": "Every label and vertex passed to cru_stretch by an expander is afterwards either in the graph or has been passed to its destructor, once and not both, also if an allocation fails at any point or the expander raises an error. The same applies to the labels of the edges being stretched.", "quantifier": "every sequence of calls and errors raised by expanders, every pattern of failed allocations, with or without destructors", "why_tests_cant": "Leaks occur only if an allocation fails at a particular point or a callback function fails.", "anchors": ["src/entry.c: cru_stretch", "src/emap.c: _cru_edge_map, _cru_free_map, _cru_pop_map", "src/scatter.c: _cru_scatter_and_stretch", "src/stretch.c: scattered"]}
{"id": "C88", "title": "A graph can be freed in spite of memory exhaustion", "statement": "If allocations of packets or of table entries fail while a graph is being freed by several workers, every node, vertex and edge label is nevertheless destroyed, none of them twice, and no node is accessed after being destroyed. Freeing comes to an end even if no memory is available at all, because packets are returned to a reserve.", "quantifier": "every finite graph, number of workers, schedule, pattern of failed allocations, size of the reserve, and errors raised by destructors", "why_tests_cant": "The code involved runs only if allocations fail at particular points, in combination with the interleaving of workers.", "anchors": ["src/graph.c: _cru_freeing_task", "src/scatter.c: _cru_unscatterable", "src/pack.c: _cru_buffered, _cru_spun, _cru_unbuffered, new_packet", "src/nodes.c: _cru_transplanted_out"]}
{"id": "C89", "title": "Search for the initial vertex of a zone", "statement": "When a zone specifies an initial vertex, the concurrent search finds the node with a vertex equal to it whenever there is one in the graph, reports CRU_INCINV if there is none, reports no other error unless the equality predicate raised it, and always ends.", "quantifier": "every graph, equality predicate, initial vertex, number of workers and schedule", "why_tests_cant": "The search is stopped by a flag that other workers notice at unpredictable times, so that no finite number of runs covers the interleavings.", "anchors": ["src/zones.c: base_searching_task", "src/zones.c: located", "src/crew.c: _cru_maybe_disjunction", "src/launch.c: _cru_maybe_disjunction_launched", "man/man7/cru_zone.7.in"]}
{"id": "C90", "title": "Map-reduction over a zone", "statement": "cru_mapreduced with a zone reduces the values of exactly the vertices in the zone determined by the initial vertex, reports CRU_INCINV if that vertex is missing, and reports CRU_INTKIL only if the operation was stopped by the user.", "quantifier": "every graph, zone, equality predicate, mapping, reduction, number of workers and schedule", "why_tests_cant": "A test run exercises one interleaving of the worker threads; the claim must hold for every interleaving, every number of workers and every user callback.", "anchors": ["src/entry.c: cru_mapreduced", "src/zones.c: _cru_initial_node", "src/route.c: _cru_reset", "src/route.c: _cru_free_router", "man/man3/cru_mapreduced.3.in"]}
{"id": "C91", "title": "Doubly linked node lists and queues are kept consistent", "statement": "After any number of insertions, removals, enqueueings, concatenations and conversions of lists to queues and back, as done by the operations on graphs, every list and queue is properly linked both ways and contains the right nodes in the right order, no internal error is raised, and no list is affected by operations on others. Nodes of a graph being half severed and put in the lists of their lanes in any order end up in these, and the graph assembled from the workers' queues has all nodes in it with the base node at the front of the queue of the base bay.", "quantifier": "every number of lists, queues and nodes, every sequence of operations and every order of distribution", "why_tests_cant": "a node linked to the wrong place by a rarely taken branch is noticed only much later, as a leak or as corrupted memory", "anchors": ["src/nodes.c: _cru_pushed_node", "src/nodes.c: _cru_severed", "src/nodes.c: _cru_half_severed", "src/nodes.c: _cru_cat_nodes", "src/queue.c: _cru_enqueued_node", "src/queue.c: _cru_append_nodes", "src/queue.c: _cru_queue_of", "src/queue.c: _cru_nodes_of", "src/crew.c: _cru_node_union"]}
{"id": "C92", "title": "Workers operate on their own node lists without locks", "statement": "An operation on the lists and queues of one worker neither changes nor depends on anything in those of another, so that whatever the order in which the operations of different workers are interleaved, each worker is left with what it would have if it were the only one.", "quantifier": "every number of workers, lists and nodes, and every interleaving of operations", "why_tests_cant": "A test run exercises one interleaving of the worker threads; the claim must hold for every interleaving, every number of workers and every user callback.", "anchors": ["src/nodes.c: _cru_pushed_node", "src/nodes.c: _cru_severed", "src/queue.c: _cru_enqueued_node", "src/stretch.c: _cru_pruning_task", "src/duplex.c: populating_task"]}
{"id": "C93", "title": "Errors raised by workers are reported", "statement": "If any worker launched by an operation raises an error, then the operation reports an error, and the error reported is one raised by a worker. When workers return error codes or counts, it is the first one detected, and all errors conflicting with it are logged while nothing else is. CRU_INTKIL is reported only if the operation was killed and no worker raised an error. The launching thread always ends up having joined with all of the workers.", "quantifier": "every number of workers, every error code raised by each of them, every interleaving, early and late detection, and every pattern of failed allocations", "why_tests_cant": "whether one error prevails over another depends on which worker gets the lock first", "anchors": ["src/runners.c", "src/sync.c: error_consumed, _cru_throw", "src/crew.c", "src/launch.c", "src/route.c: _cru_free_router", "man/man7/cru_function_types.7.in"]}
{"id": "C94", "title": "Crews are neither lost nor shared", "statement": "Whatever the sequence of making crews on demand, borrowing them from the reserve, releasing them and replenishing the reserve, each crew is in the hands of at most one launching thread, none is lost, the reserve does not exceed its limit, there are enough crews in it for as many borrowers as the limit says once it has been replenished, and everything is freed when the reserve is closed with no crew in use.", "quantifier": "every sequence of operations, every limit, and every pattern of failed allocations", "why_tests_cant": "the reserve is used only if memory is exhausted", "anchors": ["src/crew.c: crew_of, _cru_crew_of, free_crew, _cru_reserved_crews, _cru_replenish_crews, _cru_close_crew"]}
{"id": "C95", "title": "Merging destroys what it replaces", "statement": "When a graph is merged, every vertex, edge label and property, whether of the given graph or made by the kernel, is either in the result or passed once to its destructor, namely the one by which such items are to be destroyed, and after a failure nothing is left; moreover, merging ends.", "quantifier": "every graph, every classification of vertices, every outcome of reductions and edge comparisons, every pattern of errors, any number of workers", "why_tests_cant": "a label that is destroyed by the wrong destructor, twice or not at all does no visible harm in most tests, and errors in the middle of merging are rare", "anchors": ["src/merge.c: assimilated, fuse_vertices, vertex_merging_task, demerge_vertices, filter_edges, fused_edges, edge_merging_task, demerge_edges, demerging_task, merge, _cru_merged", "src/stretch.c: _cru_cull, _cru_pruning_task", "src/brig.c: _cru_reduced_brigade, _cru_deduplicated_brigade", "src/props.c: unprop, _cru_unpropped, _cru_unset_properties", "src/nodes.c: _cru_free_nodes, _cru_free_vertices, _cru_free_outgoing_edges_and_labels"]}
{"id": "C96", "title": "Construction and initialisation are all or nothing", "statement": "If any call of a pthread or allocation function fails during the initialisation of static storage, everything initialised before is destroyed and an error is reported, and otherwise everything is initialised. The same applies to making kill switches, ports and routers. No function called in whatever order uses anything that isn't initialised. At the end everything is destroyed exactly once, and not used afterwards by threads still running in the background, and all of the errors they report are printed.", "quantifier": "every pattern of failing calls, every number of locks, lanes and ports, every history of calls, every interleaving with threads in the background", "why_tests_cant": "calls of pthread functions practically never fail in tests, and initialisation happens only once in each process", "anchors": ["src/entry.c: initialization, teardown, cru_connect, cru_stretch", "src/errs.c: _cru_open_errs, _cru_close_errs, _cru_error_checking_mutex_type", "src/getset.c: _cru_open_getset, _cru_close_getset", "src/cthread.c: _cru_open_cthread, _cru_close_cthread, _cru_mutex_init, _cru_cond_init", "src/killers.c: _cru_open_killers, _cru_close_killers, _cru_new_kill_switch, cru_free_kill_switch", "src/crew.c: _cru_open_crew, _cru_close_crew", "src/pack.c: _cru_open_packets, _cru_close_packets", "src/graph.c: _cru_open_graph, _cru_close_graph", "src/pods.c: _cru_pod_of, _cru_free_pod", "src/ports.c: _cru_new_port, _cru_free_port", "src/route.c: router_of, _cru_free_router"]}
{"id": "C97", "title": "Empty and corrupted graphs and missing specifications", "statement": "Every function consuming a graph returns NULL without an error if the given graph is NULL, which stands for an empty graph, and everything allocated by then is freed. If the given graph is detectably corrupted, the function returns NULL, reports CRU_BADGPH, and doesn't touch it any further. If the graph is valid but there is no specification of what should be done with it, it is returned unchanged. Functions not consuming a graph treat empty and corrupted ones accordingly.", "quantifier": "every function, every number of nodes, every pattern of failing calls, every error code passed to the function", "why_tests_cant": "these cases occur only when programs using the library are wrong or don't know whether a graph is empty, and what isn't freed can be detected only by instrumentation", "anchors": ["src/entry.c: cru_crossed, cru_fabricated, cru_vertex_count, cru_mapreduced, cru_induced, cru_partition_of, cru_stretched, cru_split, cru_composed, cru_spread, cru_merged, cru_filtered, cru_deduplicated, cru_mutated, cru_postponed", "src/graph.c: _cru_bad, _cru_free_now", "src/route.c: _cru_stored", "src/cross.c: _cru_cross", "src/classes.c: _cru_partition_of"]}
{"id": "C98", "title": "Operations settle what they are given", "statement": "Whatever allocation, launch or callback function fails in an operation, and whenever it is killed, the router and the copy of the specification have been freed at the end, nothing is used or freed wrongly, each node of a consumed graph is either freed or part of the graph that is returned, and the graph itself is returned or freed. No result is returned with an error. Operations not consuming their operands leave all nodes in place.", "quantifier": "every operation, every number of nodes and iterations, every pattern of failing calls, every error code raised by workers, every choice of nodes deleted, one lane or several", "why_tests_cant": "there are dozens of calls in each operation that may fail, and most combinations of them never occur in tests", "anchors": ["src/entry.c: cru_crossed, cru_fabricated, cru_vertex_count, cru_mapreduced, cru_induced, cru_partition_of, cru_stretched, cru_split, cru_composed, cru_spread, cru_merged, cru_filtered, cru_deduplicated, cru_mutated, cru_postponed, cru_free_now", "src/launch.c: _cru_launched, _cru_status_launched, _cru_count_launched, _cru_queue_launched, _cru_graph_launched", "src/route.c: _cru_sweep, _cru_shared, _cru_reset, _cru_free_router, _cru_stored", "src/props.c: _cru_set_properties, _cru_unset_properties", "src/zones.c: _cru_initial_node", "src/stretch.c: _cru_stretched", "src/split.c: _cru_split", "src/compose.c: _cru_composed", "src/spread.c: _cru_spread", "src/merge.c: _cru_merged", "src/filters.c: _cru_filtered, _cru_pruned", "src/duplex.c: _cru_deduplicated", "src/mutate.c: _cru_mutated", "src/postpone.c: _cru_postpone", "src/cross.c: _cru_cross", "src/fab.c: _cru_fabricated", "src/induce.c: _cru_induce", "src/mapreduce.c: _cru_mapreduce", "src/classes.c: _cru_partition_of", "src/graph.c: _cru_free_now"]}
{"id": "C99", "title": "Mutation destroys what it replaces", "statement": "When a graph is mutated, each vertex and each edge label that is replaced is passed once to the destructor of the graph given, and nothing else is. If the mutation fails, each given and each new vertex and label is passed once to its own destructor. No vertex or label is destroyed twice or referred to after it was destroyed.", "quantifier": "every graph, every order in which nodes are mutated by any number of workers that the plan allows, every pattern of failing vertex operations, edge operations, destructors and other calls", "why_tests_cant": "labels that are destroyed by the wrong destructor or not at all do no visible harm in most tests, and it depends on the schedule how far mutation has got when there is an error", "anchors": ["src/mutate.c: bound, permeate, reflect, undo_reflection, mutate, start, all_quiescent, mutating_task, retract, retracting_task, unmutate, unmutating_task, propagate", "src/nodes.c: mapped_node, _cru_mapped_node, _cru_free_nodes", "src/edges.c: _cru_free_labels"]}
{"id": "C100", "title": "Edges are neither lost nor destroyed twice when grouping, deduplicating, reducing or filtering them fails", "statement": "Whichever allocations, callback functions and destructors fail while a list of edges is grouped, deduplicated, reduced, pruned or filtered, each edge given is either in what is returned or has been freed once, the buckets allocated are those returned or have been freed, labels obtained from a reduction are in the result or have been destroyed, an error already reported is kept, and if no error is reported then the result is the right one. If nothing fails, no error is reported.", "quantifier": "every list of edges, every relation, hash, predicate and reduction whose results and errors may vary with time, and every combination of failing allocations and destructors", "why_tests_cant": "Each of many allocations and callback functions could fail, and what remains to be freed is different for each of them.", "anchors": ["src/brig.c: _cru_push_bucket, _cru_bundled, _cru_bucketed, _cru_deduplicated_brigade, _cru_reduced_brigade, _cru_minimum_bucket", "src/table.c: unwind, _cru_marshalled, _cru_rallied, _cru_record_edge, _cru_already_recorded", "src/edges.c: _cru_repeating_labels, _cru_deduplicated_edges, _cru_minimum_edge", "src/build.c: unique", "src/merge.c: filter_edges", "src/filters.c: individually_filtered, jointly_filtered, jointly_thinned, filtered"]}
{"id": "C101", "title": "Spreading calls a subconnector once for each vertex and class of labels", "statement": "Once cru_spread has called a subconnector for a vertex reached by a declared edge, it does not call it again for an equal vertex and an equal label when that is reached by another declared edge.", "quantifier": "every graph, builder, number of workers, order of packets and time of being killed", "why_tests_cant": "A test run exercises one interleaving of the worker threads; the claim must hold for every interleaving, every number of workers and every user callback.", "anchors": ["src/build.c: _cru_reach_extant_node, _cru_reached_new_node", "src/spread.c: spreading_task"]}
{"id": "C102", "title": "The memory test harness grants and refuses allocations exactly as limited", "statement": "The number of allocations reported is the number of those granted, whether real or simulated. A limit is accepted unless it is exceeded already. As long as the limit in force is not reached, an allocation gets what the system gives. If SOFT_LIMIT is undefined the limit is never exceeded and all allocations at the limit are refused; otherwise one is refused and all later ones are granted. The first 64 places of refusals are recorded in order, and all are counted.", "quantifier": "every sequence of calls to the harness with any arguments, of any length", "why_tests_cant": "Test programs use the harness and do not test it; a single sequence of calls is observed in each run.", "anchors": ["src/wrap.c: _cru_malloc_wrapper, _cru_allocation_allowed, _crudev_limit_allocations, _crudev_allocations_performed"]}
{"id": "C103", "title": "The memory test harness detects leaks if and only if there are any", "statement": "If blocks are not smaller than a pointer and only live blocks are deallocated in the source files where they were allocated, then crudev_all_clear reports success if and only if the live blocks are not more than the structures in reserve, and otherwise a memory leak; nothing is taken for a double free and no internal error is thrown; and the report on exit lists exactly the files and numbers of the live blocks of each size up to 256 units.", "quantifier": "every orderly sequence of calls to the harness, of any length, with any number of files up to the given one", "why_tests_cant": "Test programs use the harness and do not test it; whether it misses a leak is not seen in a run without leaks.", "anchors": ["src/wrap.c: _cru_malloc_wrapper, _cru_free_wrapper, _crudev_all_clear, _cru_close_wrap"]}
{"id": "C104", "title": "The memory test harness detects and prevents double frees", "statement": "If a block is deallocated when no block of the same file and size is live, then the place is recorded, and from then on all simulated allocations fail and all is not clear. As its comment says, the wrapper does not deallocate the memory in that case but throws a double free error.", "quantifier": "every sequence of calls to the harness, of any length", "why_tests_cant": "A program with a double free has to be run to see it, and the library has none to begin with.", "anchors": ["src/wrap.c: _cru_free_wrapper, _cru_allocation_allowed, _crudev_all_clear"]}
{"id": "C105", "title": "The heap tracker is a record of memory in use", "statement": "After an orderly sequence of calls, the heap tracker counts the live blocks of each file and size, even if the system has refused memory.", "quantifier": "every orderly sequence of calls to the harness and every outcome of the calls to malloc", "why_tests_cant": "The system does not run out of memory during tests.", "anchors": ["src/wrap.c: _cru_malloc_wrapper, _cru_close_wrap"]}
{"id": "C106", "title": "Fabrication loses no vertices or labels when anything fails", "statement": "When cru_fabricated is carried out by any number of workers and allocations, user functions, destructors or other calls fail at any times, or the operation is killed, every vertex and label made by the user functions is destroyed exactly once if the operation fails and never if it succeeds, in which case it is in the graph returned; and no packet refers to an edge that was freed. This is false of vertices returned by the vertex function along with an error, which are lost (at most one by each worker), and holds of everything else.", "quantifier": "all graphs, schedules, outcomes of all calls at all times, numbers of workers", "why_tests_cant": "A test can make a chosen call fail at a chosen time under whatever schedule happens to occur; the combinations of failure times and interleavings are unbounded.", "anchors": ["src/fab.c: new_node, fabricating_task", "src/scatter.c: _cru_scatter_out", "src/edges.c: _cru_edge", "src/nodes.c: _cru_node_of"]}
{"id": "C107", "title": "Crossing loses no vertices, labels or products when anything fails", "statement": "When cru_cross is carried out by any number of workers and allocations, user functions, destructors or other calls fail at any times, the vertex limit is exceeded, or the operation is killed, every vertex and label made by the user functions (even along with an error) is destroyed exactly once if the operation fails and never if it succeeds, in which case it is in the graph returned; every product allocated is in exactly one packet or collision table until freed, and all of them have been freed in the end.", "quantifier": "all pairs of graphs, schedules, outcomes of all calls at all times, numbers of workers", "why_tests_cant": "A test can make a chosen call fail at a chosen time under whatever schedule happens to occur; the combinations of failure times and interleavings are unbounded.", "anchors": ["src/cross.c: product_of, productive_packets_of, free_productive_packets, reach_extant_node, reached_new_node, _cru_crossing_task"]}
{"id": "C108", "title": "Splitting loses no vertices or labels when anything fails", "statement": "When cru_split is carried out by any number of workers and allocations, user functions, destructors or other calls fail at any times, the vertex limit is exceeded, or the operation is killed, every vertex and label in the graph or made by the splitter is destroyed exactly once if the operation fails; and if it succeeds, each is either destroyed once or in the graph returned; no packet refers to an edge that was freed or is in another packet. This is false of vertices returned by the functions ana or cata of the splitter along with an error, which are lost (at most one by each worker), and holds of everything else.", "quantifier": "all graphs, schedules, outcomes of all calls at all times, numbers of workers", "why_tests_cant": "A test can make a chosen call fail at a chosen time under whatever schedule happens to occur; the combinations of failure times and interleavings are unbounded.", "anchors": ["src/split.c: fan_out, fan_in, splitting_task, _cru_split", "src/scatter.c: _cru_scatter_out"]}
{"id": "C109", "title": "Map reductions lose no values, records or errors when anything fails", "statement": "When cru_mapreduced is carried out by any number of workers, threads joining with them and threads reducing pairs of results, and allocations, the map, the reduction, destructors, thread creations or selections fail at any times, or workers are killed, then at any time every value returned by the map or the reduction is either destroyed, exactly once, or held in exactly one place, and every record of the kinds maybe and maybe_pair is freed exactly once or held; in the end nothing but the result remains, and not even that if there is an error. Every error raised by the map or the reduction is pending at once, no pending error is ever forgotten by any record or thread, and if there is one then an error is reported in the end without a result.", "quantifier": "all schedules, outcomes of all calls at all times, numbers of workers and of threads created, times of kills", "why_tests_cant": "A test can make a chosen call fail at a chosen time under whatever schedule happens to occur; the combinations of failure times, pairings of results and interleavings are unbounded.", "anchors": ["src/mapreduce.c: visit, _cru_mapreducing_task", "src/maybe.c: _cru_new_maybe, _cru_free_maybe, _cru_free_maybe_pair, _cru_maybe_paired, _cru_maybe_fused", "src/crew.c: _cru_maybe_reduction", "src/runners.c: _cru_maybe_runner, _cru_maybe_joiner", "src/entry.c: cru_mapreduced"]}
{"id": "C110", "title": "Inductions lose no intermediate results when anything fails", "statement": "When cru_induced is carried out by any number of workers and allocations, the user functions, destructors or other calls fail at any times, or the operation is killed, then at any time every value obtained for a node is either destroyed, exactly once, or the accumulator of exactly one node or the result; no accumulator is overwritten while it holds a value; and in the end, whether the deduction (the second traversal, by which accumulators are deleted) could be launched or not and whichever of its packets could be sent, no accumulators remain in the graph and every value but the result has been destroyed exactly once, as has the result if there is an error.", "quantifier": "all graphs, schedules, outcomes of all calls at all times, distributions of nodes among any number of workers", "why_tests_cant": "A test can make a chosen call fail at a chosen time under whatever schedule happens to occur; the combinations of failure times in both traversals and interleavings are unbounded.", "anchors": ["src/induce.c: visit, _cru_inducing_task, deducing_task, _cru_induce", "src/crew.c: _cru_maybe_disjunction", "src/entry.c: cru_induced"]}
