# Formal model of gueststar/cru in Rocq (Coq 8.16.1)

The subject is the C library in `/repo` (read as text only, never built or run).
The model and the proofs are in `rocq/theories`.  `properties.jsonl` lists the
claims, `MANIFEST.json` says which theorem settles which claim, and
`seeded/LOG.jsonl` records the deliberately broken variants of the model used to
test the theorems.

In that log, `theorems_failed` lists the statements whose proofs stopped building.
Each failing proof is admitted in the scratch copy to look for others, so a claim
depending on a failing lemma is usually not listed itself.  A proof that stops
building does not show that its statement is false of the broken variant, as the
proof script may just not fit any more.  Only failing examples, which are
computed, are evidence of that.  An empty list with nothing tightened means a
variant that breaks no claim or an inconclusive attempt, as the entry says.

## 1. How the code is modelled

The library has one recurring structure, and the model follows it.

1. **Message passing layer** (`ports.c`, `pods.c`, `sync.c`, `crew.c`,
   `launch.c`).  A fixed number of worker threads ("lanes"), each with a port
   (mutex protected queue of *assigned* packets, queue of *deferred* packets,
   `waiting`/`dismissed` flags), a private pod of outgoing packet lists, and a
   shared router (`running` counter, `quiescent` flag).  It is modelled as an
   interleaving transition system `Ports.step` in which one step is one critical
   section (or one private action) of one thread, including the supervising
   thread which starts the crew, sends the initial packet, waits for quiescence
   and dismisses the workers.  The schedule is an arbitrary sequence of steps.
   The task executed by the workers is an arbitrary function parameter
   `task : state -> packet -> option (state * list packet)` (`None` = the packet
   is deferred).
2. **Abstract packet machine** (`Machine.v`).  A configuration is a shared state
   and a bag of packets in flight; a step takes *any* packet from the bag and
   processes it.  A refinement theorem shows that every execution of layer 1
   that ends in quiescence is an execution of layer 2 that ends with an empty
   bag.  So everything proved for all layer 2 executions holds for every thread
   schedule and every number of workers.
3. **Tasks** (`build.c`, `count.c`, `props.c`, `mapreduce.c`, `fab.c`,
   `cross.c`, `filters.c`, `mutate.c`, `induce.c`, `merge.c`, `classes.c`,
   `compose.c`, `split.c`, `postpone.c`, `spread.c`, `stretch.c`, `duplex.c`,
   `graph.c`).  Each task body is a Gallina function instantiating layer 2.  The
   specifications are inductive reachability relations, permutations, folds and
   graph isomorphisms which mention neither workers nor packets.
4. **Sequential helpers** (`edges.c`, `nodes.c`, `brig.c`, `table.c`, `emu.c`,
   `pack.c`, `repl.c`, `errs.h`, `killers.c`, `defo.c`, `infer.c`, the union-find
   part of `classes.c`).  Modelled as total functions or as small state machines.

User callbacks (hash, equality, connector, maps, reductions, predicates) are
universally quantified function arguments.  The man pages' requirements on
them (equality is an equivalence, equal values have equal hashes, reduction is
associative and commutative where results are claimed unique) are explicit
hypotheses, each met by a concrete `Example` next to the theorem.

### Modelling conventions

* Pointers to nodes are natural numbers; a heap is a total function from them to
  records plus a finite list of allocated ids.  Pointers to user data are values
  of abstract types.
* `MOD(hash, lanes)` (`ports.h:34`) is modelled literally as
  `(hash mod 1031) mod lanes`.
* The processing of one packet by a task is one atomic step.  The C code runs it
  without locks: it reads and writes data owned by the executing worker, plus
  fields of other nodes which by construction of the protocol only one worker
  writes during a pass (e.g. the terminus field of a carrier edge).  That these
  accesses do not race at the level of the C memory model is *not* proved; it is
  part of the trusted modelling step.
* A critical section under a port mutex that contains a nested critical section
  under the router mutex (`assigned` calling `_cru_swell`, `blocking_assignment`
  calling `_cru_dwindled`) is one step.  Justification: everything before and
  after the nested section touches only data guarded by the port mutex, hence
  commutes with the steps of all other threads.
* Memory exhaustion is modelled only where a theorem says so.

## 2. Trusted base

* Coq 8.16.1's kernel (and `coqchk`'s re-check of it).
* What `Print Assumptions` lists for each theorem.  `Assumptions.v` prints it for
  every theorem named in `MANIFEST.json`; see section 5.
* The faithfulness of the hand-written model to the C text: each definition
  cites the file and lines it models and says where it simplifies.

## 3. Not modelled

* The initialization and teardown code of `cthread.c`, `runners.c`, `wrap.c`,
  `config.h.in`, `nthm` (external library), usleep/backoff timing, the
  concurrency kit variant of `assignment` (`ports.c:249-252`), magic number
  checks and `IER` internal error codes guarding impossible states.
* The Judy arrays themselves: they are represented by finite maps; the emulation
  in `emu.c` is modelled.

## 4. Plan per property

| id | model | proof |
|----|-------|-------|
| C01 C02 C03 C06 | `build.c` task over layer 2: per-lane collision tables, carrier back-patching | inductive invariant over executions: every node's edges are the connector's declarations, every unresolved edge has exactly one packet in flight, tables are duplicate free and lane-consistent; at the end no packet is left so all edges are resolved; reachability by induction |
| C04 | same, with a ledger of destroyed values | permutation invariant: handed over = in nodes + in packets + destroyed |
| C05 | subconnector variant with `seen_carriers` tables | same style of invariant over (label class, vertex) combinations |
| C07 | building task with `limit`/`count` | invariant count = number of nodes in lane; arithmetic |
| C08 | `entry.c:210` with explicit undefined behaviour outcome | refuted by witness (NULL dereference) |
| C09 C10 C11 C47 C48 | layer 1 | inductive invariants (running = awake workers + signalled ones; conservation of packets as permutations; a responsible worker exists for each deferred packet) and refinement |
| C12 | layer 1 plus spurious wakeup steps | refuted by a concrete schedule |
| C13 | `MOD`, `_cru_scalar_hash` on 64 bit words | arithmetic; xorshift and odd multiplication are invertible |
| C14 C15 C42 | node visiting task over layer 2 | generic visitor theorem: visit order is a duplicate free enumeration of the reachable set; termination by a decreasing measure |
| C16 | per-lane reductions then pairwise fusion in any order | induction on executions, multiset algebra |
| C17 C18 | `edges.c`, `nodes.c` folds with destructor ledger | list induction |
| C19 C20 | deferring tasks over layer 2 | invariant: visited set closed under prerequisites, values satisfy the recursion; a measure for termination |
| C56 C57 C58 | mutations with zones, incompatible destructors, and requests during the last pass | refuted by runs |
| C21 C49 | filter passes | an invariant of the pass over the edges in which cutting requests overtake or follow visits; reachability of the pruned graph |
| C52 C53 | the same with zones; joint tests | refuted by runs |
| C22 C23 | passes that set properties, classify vertices and prune, with the fusion of vertices and edges in between | invariant of the tables of classes; grouping lemmas for brigades; multiplicity tables; reachability of the quotient |
| C59 C60 C61 | mergers without a classifier, or whose vertex operation depends on edges | refuted by runs |
| C33 C62 C63 | deduplicating and pruning passes, with edges that move between nodes and are redirected | invariant of the tables of representatives and of pending carriers; lost and repeated edges refuted by runs |
| C24 C25 C26 | classification task; union-find forest of `classes.c` | invariants on the forest; size after union refuted |
| C27 C28 C50 C67 C68 | guarding, composing, bypassing and pruning passes, iterated | per-vertex list functions and reachability; induction on the number of passes; destructive case, fixed point and operands refuted by witnesses |
| C29 C70 C71 | passes that set properties, split vertices and prune, with requests to connect and disconnect | invariant relating the edges of each node and its copy to the visits and requests pending; properties of new vertices and the limit refuted by runs |
| C30 C50 C69 | bipartition, postponing and absorbing passes, iterated | invariants of both passes give the edges of each vertex and reachability; induction on the number of passes; fixed point and reclamation refuted by witnesses |
| C32 C72 C73 | passes that set properties, make new vertices, fuse them with equal ones and prune, iterated | invariant relating stored packets, seen carriers and edges to the declared vertices; data races on the terminus of an edge are simplified to atomic steps, one for each packet |
| C31 C74–C78 | a pass that packs the nodes into the tables of the workers, and a pass like build that traverses the given edges too | invariant relating tables, lists of nodes and edges to the declared vertices; simulation between two runs; measure on nodes left to be connected |
| C79 | the log of global errors | list induction; refuted when it is full |
| C80 C81 | aborted workers and failures to start | list induction, case analysis; order of evaluation and use after free refuted |
| C84 | layer 1 with an infinite schedule | leads-to reasoning: each stage in the life of a packet has a helpful thread whose steps decrease a measure that the other threads do not increase; well founded induction on the executions of the packet machine |
| C85 C86 | threads sharing memory by way of the lock pool, assignments by halves | inductive invariant: values being read or written agree with the history of completed accesses; a measure and the greatest unfinished thread for termination; refuted for waiting while a lock is held |
| C87 | declarations of a stretcher with failing allocations and a ledger of destroyed values | counting of owned values through every path; refuted for expanders that fail |
| C88 | freeing task with failing allocations, buffers, transplanted edges and a reserve of packets | inductive invariant on nodes found, in buffers or destroyed; decreasing measure and fair schedules |
| C89 C90 | search for the initial vertex of a zone stopped by a flag, followed by a map-reduction | inductive invariant on nodes seen and found; decreasing measure; refuted for duplicate vertices and for one worker |
| C91 C92 | pointers between nodes, variables and queues in memory | refinement of operations on lists by those on pointers, for every sequence; locality, and from that independence of the interleaving |
| C93 | workers throwing errors and being joined with | inductive invariant on the stages of workers, the status of the router and the log; decreasing measure |
| C94 | histories of the reserve of crews | induction on histories; conservation as permutation |
| C95 | what becomes of vertices, labels and properties in the phases of merging | counting of each item in memory and in the ledger of destructor calls; decreasing measure; Layer 1 for classifying |
| C96 | initialisation, teardown and constructors, any of whose calls may fail | induction on the number of locks and ports; permutations of what is live; invariant of all interleavings of teardown; refuted for cru_stretch |
| C97 C98 | the functions called by users, as sequences of calls any of which may fail, with oracles for errors of workers and kills | invariant relating the router, the copy of the specification, the graph and the places of nodes, through every path; refuted for several functions |
| C99 | values followed through a mutation individually: nodes mutated by workers in any order allowed, with any operations and destructors failing, then retracting and unmutating | invariants on the values of each node and edge by the mark of the node it is changed by, in each direction; refuted for errors in certain combinations of operations |
| C100 | lists of edges, buckets and tables with a clock that tells which allocations, calls and destructors fail | balance of occurrences of each edge, bucket and label through each function, by induction on lists; agreement with `Brigade.v` if no error is reported |
| C101 | the second pass of spreading as in C31, with any sequence of packets | the table of nodes and the labels recorded only grow; a collision once found stays the first one |
| C102-C105 | the calls of all threads to the harness as one sequence, with their results; locks do not fail | counters and tracker are functions of the history, by induction on it; two comments refuted by short histories |
| C106 C107 | `MakeFree.v`: vertices, labels and products made in fabrication and crossing are numbered and followed; every allocation, user function and destructor may fail at any time, packets arrive in any order, workers may be killed | conservation invariant (occurrences of a value made = destroyed + held + lost), with a bound on losses; witness for the vertex lost by `new_node` |
| C108 | `SplitFree.v`: vertices and labels of a graph being split are followed individually through nodes, edges and the four kinds of packets; every call may fail at any time, packets arrive in any order, workers may be killed | conservation invariant as for C106, along with one saying that carriers in packets are edges of their senders and in no other packet; witness for a vertex lost by `fan_out` |
| C109 | `MapFree.v`: values and records (maybes and pairs) are followed individually through workers, joining threads, reducing threads and the launching thread of a map reduction; every call may fail at any time, workers may be killed or not joined | conservation invariant as for C106; and another invariant for errors: one that is pending anywhere remains so until it's reported |
| C110 | `InduceFree.v`: accumulators are followed individually through both traversals of an induction; every call may fail at any time, nodes are visited in any order, the second traversal may fail to start or to send packets | conservation invariant as for C106; nodes with accumulators are visited or belong to disabled ports; the nodes seen in the second traversal are closed under successors unless there is an error |
| C82 C83 | histories of threads with thread specific storage | induction on histories; refuted for tasks that do not set it |
| C34 C35 | crossing and fabricating tasks | as build; bisimulation / isomorphism |
| C36 C37 C38 C55 | kill switches shared by any number of threads, at the granularity of their locks; passes of operations with requests at any time | invariants over histories; refuted where the code loses or keeps a request |
| C54 | results of operations with errors | refuted by a run |
| C39 | error accumulation macros | list induction |
| C40 C41 | emulated containers | refinement to sets / multisets / finite maps; duplicate detection refuted |
| C43 | packet reserve | invariants over histories |
| C44 C64 C65 C66 | `defo.c` and `infer.c` in full, on structures of function pointers, and the signatures of graphs along histories of operations | normal forms of the inference of folds, then composition; induction on histories; refuted by witnesses where the manual says otherwise |
| C45 | full/half duplexing | visitor theorem with permutations |
| C46 | brigades | list induction |

Status and the precise theorem names are in `MANIFEST.json`.

## 5. Assumptions

Every theorem named in `MANIFEST.json` is "Closed under the global context": no
axioms are used.  (Loading the standard library's `ssreflect` support brings the
axioms of `Coq.ssr.ssrunder` into the environment through `Lia`; no theorem
depends on them.)

## 6. Files

| file | contents |
|------|----------|
| `Base.v` | lists, permutations, function update, reflexive transitive closure |
| `Machine.v`, `Ports*.v` | layers 2 and 1, refinement, liveness, termination |
| `Brigade*.v` | grouping of edges |
| `Graph.v` | graphs, paths, well-formedness |
| `Build*.v` | building a graph from a connector |
| `Env.v`, `Visitor*.v`, `Pass.v`, `Run.v`, `Walk.v` | the visiting scheme common to the other traversals |
| `Hash.v` | routing and the default hash |
| `Fold.v` | folds over edges and vertex properties |
| `Traverse*.v`, `ReduceProofs.v` | counting, back edges, map-reduction |
| `Construct.v`, `Fabricate.v` | traversals making a new graph; fabrication and crossing |
| `Free.v` | freeing a graph |
| `Reserve.v` | the reserve of packets, with threads interleaved at critical sections |
| `Containers.v` | multisets, node sets and vertex maps, with and without Judy arrays |
| `Partition.v` | partitions by properties, classes and their union, freeing partitions |
| `Filter.v` | filtering and thinning |
| `Induce.v` | induction, with the analysis of reachability |
| `Mutate.v` | mutation |
| `Merge.v`, `MergeProofs.v` | merging |
| `Dedup.v`, `DedupProofs.v` | deduplication |
| `Compose.v` | composition |
| `Postpone.v` | postponement |
| `Props.v` | computing properties of vertices before another pass |
| `Split.v` | splitting |
| `Stretch.v`, `StretchProofs.v` | stretching |
| `Spread.v`, `SpreadProofs.v` | spreading |
| `Errlog.v` | the log of global errors |
| `Abort.v` | aborted workers, and failures to start building |
| `PortsFair.v` | progress and termination under fair schedules, for tasks that may put packets back |
| `Locks.v` | the lock pool and shared memory |
| `Declare.v` | `cru_stretch` and the consumption of edge maps, with memory exhaustion |
| `FreeOom.v` | `_cru_freeing_task` with memory exhaustion |
| `Search.v` `P_Search.v` | searching a graph for the initial vertex of a zone, its effect on the router, and map-reduction of zones |
| `Lists.v` `P_Lists.v` `P_ListsLocal.v` | node lists and queues at the level of pointers, and the independence of workers that operate on different ones |
| `Status.v` | errors thrown by workers and those reported to the launching thread |
| `Crews.v` | crews and the reserve of them |
| `MergeFree.v` | memory in merging |
| `Init.v` | initialisation, teardown, kill switches, ports and routers if calls fail |
| `Ops.v`, `P_Ops.v`, `P_OpsKeep.v`, `P_OpsEdge.v` | entry points and launching functions of all operations: routers, copies, graphs and nodes when anything fails; empty and corrupted graphs (C97, C98) |
| `MutateFree.v`, `P_MutateFree.v` | what becomes of vertices and labels in mutations, also if anything fails (C99); errors of the bounding and the last pass are left out, those being dealt with in C58 and C98 |
| `BrigadeFail.v`, `P_BrigadeFail.v` | src/brig.c, src/table.c:161-376, src/edges.c:288-444, src/build.c:49-81, src/merge.c:232-274 and src/filters.c:261-426 if allocations, callback functions and destructors may fail (C100) |
| `P_SpreadOnce.v` | calls of a subconnector when spreading (C101) |
| `Wrap.v`, `P_Wrap.v` | src/wrap.c, the memory test harness (C102-C105) |
| `MakeFree.v`, `P_MakeFree.v` | fate of vertices, labels and products in fabrication and crossing when any call may fail (C106 C107) |
| `SplitFree.v`, `P_SplitFree.v` | fate of vertices and labels in splitting when any call may fail (C108) |
| `MapFree.v`, `P_MapFree.v` | fate of values, records and errors in map reductions when any call may fail (C109) |
| `InduceFree.v`, `P_InduceFree.v` | fate of accumulators in inductions when any call may fail (C110) |
| `Context.v` | thread specific storage, attributes and contexts of callback functions |
| `Errs.v` | the error macros and callbacks guarded by them |
| `Infer.v` | inference of default operators and detection of faults (standalone) |
| `Kill.v` | kill switches |
| `P_*.v` | the theorems named in `MANIFEST.json`, with examples |
| `Assumptions.v` | what they depend on |
