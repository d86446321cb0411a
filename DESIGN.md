# Formal model of graphbench in Rocq (Coq 8.16.1)

Source: `/repo` (Rust, `microgravitas/graphbench`), read as text, never executed.
All line numbers cited in the Coq comments refer to `/repo/src`.

## 1. Modelling conventions

* **Vertices** (`u32`) are `N`.  Arithmetic on vertex labels and `u32` counters that can
  really wrap in the code (offsets in `disj_union`, `matching`, `biclique`, `grid`,
  `subdivide`, products, `(2r)^2` in the domset code) is written with an explicit
  `mod 2^32`, or the theorem carries the "labels fit into u32" hypothesis.
  Sizes and counters that count elements of an in-memory container (`usize`, degree `u32`)
  are unbounded `nat`: a container cannot hold 2^64 items, and a vertex cannot have more
  than 2^32-1 neighbours.
* **Hash containers**: `FxHashMap<Vertex,T>` is std++ `gmap N T`, `FxHashSet<T>` is `gset T`.
  The *iteration order* of a hash container is an arbitrary oracle: the class `HashIter`
  supplies, for a call-site/time tag and a set, an arbitrary list that is a permutation of the
  set's elements.  All theorems quantify over every `HashIter` instance.
* **Panics** (`unwrap`, index out of bounds, `panic!`, `assert!`, debug-mode underflow) are the
  value `Panic` of the monad `res`; running out of fuel in a fuelled loop is the distinct value
  `Diverge`.  "Does not panic and terminates" is therefore "= Ok _".  `get_unchecked` out of
  bounds (undefined behaviour) is modelled as `Panic` as well.
* **Loops** over iterators are folds over the list the iterator yields.  `while` loops are
  fuelled, with the fuel proved to be sufficient.
* **Trait `Graph`** is a record of methods (`graph`): `vertices` and `neighbours u` are the lists
  the iterators yield.  Generic code (iterators, operations, algorithms, io) is modelled over
  this record.  `graph_wf` says what a well-behaved implementation does, and is *proved* for the
  views of reachable `EditGraph`s (any hash order), `OrdGraph`s, `DegenGraph`s.  So a theorem about all
  well-formed `graph`s has non-vacuous hypotheses.
* **Iterators** (`EdgeIterator`, `MixedIterator`, `ArcIterator`, `DTFArcIterator`) are state machines with a `next`
  function; "draining" is an inductive relation on `next`.

## 2. Files

| file | contents |
|---|---|
| `Base.v` | result monad, hash iteration oracle, u32 wrap |
| `Spec.v` | independent specification vocabulary: abstract graphs, walks, distances, order |
| `M_*.v` | models, one per Rust module, no proofs |
| `P_*.v` | proofs |
| `T_*.v` | property theorems, `Example`s for their hypotheses, `Print Assumptions` |

## 3. Plan per property

C01-C05 (EditGraph): model `adj`, `degs`, `m` literally; abstract state = (vertex set, set of
normalised edges); representation invariant; refinement by induction over the operation list.
C06, C07: iterator state machines drained; C07 is false for loops (MixedIterator skips them):
refuted by a witness, proved for all non-loop edges (partial).
C08: folds of single edits. C09: contraction, `contract_pair(u,u)` is refuted (deletes u).
C10-C12: default methods of the trait over `graph_wf`; C12 by induction on r against walks.
C13, C14: relabelling; C13 refuted at label 2^32-1, proved without overflow.
C15: each generator against an explicit edge predicate; refuted for `complete_kpartite([n])`,
`biclique(s,0)`, `star(0)`, `grid(1,1)`; proved otherwise.
C16-C21 (EditDigraph): as C01; C17 refuted (`adjacent` is not symmetric), C19 refuted
(orientation lost).
C22: components with the union-find crate modelled by its abstract partition.
C23, C24: bucket-queue invariant; C24 upper bound refuted above 130, proved when small.
C25, C26: DFS invariant; C26 refuted (closed odd walk only), partial: odd closed walk.
C27-C33: operations and comparison against edge predicates; products lose isolated vertices
(refuted), proved on the non-isolated ones.
C34-C36 (OrdGraph): C35 refuted for adjacent pairs, proved for non-adjacent pairs.
C37-C39 (DegenGraph): packed array; representation predicate relating array and rows.
C40-C42: BFS layers against restricted walks.
C43: packed array of ReachGraph (DEPTH is a parameter; refuted at DEPTH = 0); C68 refuted (off by one).
C44 refuted, partial: the search is exact where non-adjacency is transitive on left neighbourhoods. C45 refuted, partial: coloured neighbours differ.
C46, C47, C48, C49, C50: domset and scattered colouring; C47 refuted; C49 refuted for odd d.
C51-C56 (DTFGraph): C52, C54, C56 refuted; C53, C55 proved; C54 proved for forests and for augmentations without lost fraternal pairs (T_DTFExact.v), by induction on a shortest path.
C57-C59 (trace oracle): inclusion-exclusion over left neighbourhoods.
C60-C62, C74 (io): character-level model of printing and parsing; C61 refuted (isolated vertices).
C75, C76 (io): byte-level model of `BufRead::lines`, UTF-8 decoding, `Path::extension`, and a file
system as a map from names to contents; gzip is any pair of functions with gunzip(gzip b) = b.
C76 refuted (`line.unwrap()`).
C63-C65, C69: vertex maps, colourings, VertexOrEdge; C64 refuted for negative colours.
C66, C67 (EditDigraph generators, bulk edits): as C15, C08.
C70-C73 (DTFGraph): layers, weights, orient_deep, conversions; C70, C72, C73 refuted.
C77-C79 (loops): invariant of the bucket queue without looplessness; C77 refuted.
C80, C81 (domset quality): counters of `ds_update` counted per dominated vertex, then double
counting over the weakly reachable sets of an arbitrary dominating set X; packing for the witness.
C82 (determinism): each algorithm compared on two graphs and two hash orders, through its
specification where that fixes the result, else by commuting the steps of its loop.
C83 (algorithms on ReachGraph): C82 with the neighbour lists replaced; refuted beyond the trivial radii.
C84, C85 (strong against weak reachability): split a weak walk at its first vertex left of the start; induct on the radius for the sizes.
C86 (end to end): C62, C08, C24, C34 and C80 composed; degeneracy and domination stated on the list of edges.
C87 (hash order and general graphs): core numbers of two runs compared through the first removed member of a dense set; the rest from the exact specifications.
C88 (certified domination on sparse graphs): orient each conflict from the side whose common weakly reached vertex is far, bound out-sets by the cutoff counters, so every set of scattered vertices has a member of degree at most b; then by_degeneracy cannot meet the inexact range of its queue, and pigeonhole on colours.
C89 (write errors): device as an answer function, BufWriter and GzEncoder over it; invariant that stored, buffered and pending bytes form a prefix of the stream; a device that stops after a computed number of bytes refutes the claim for gzip.
C90 (renaming): transport of the specifications (cores, walks, components, 2-colourings) along the map for general graphs; for linear graphs a simulation of each loop with states related by the image of sets and maps.
C91 (laws): both sides are computed with the specifications of C08, C10-C12, C14, C27-C29 and C33, and reachable EditGraphs with equal vertices and edges are equal states.
C92 (generated graphs): degeneracy from an elimination rank and a witness of minimum degree through C24, components from their classes through C22, bipartiteness from 2-colourings through C25; identities from C13, C15, C27 and C33.
C93 (combined graphs): degeneracy upper bounds by sparse vertices and lower bounds by subgraphs of minimum degree carried through the operation; components by retractions and classes; bipartiteness by 2-colourings.
C94 (undirected functions on digraphs): the Graph implementation of EditDigraph with a symmetric adjacency is a graph whose neighbour lists may repeat (S_Multi.v); the specifications of components, is_bipartite, degeneracy and the operations are proved for such graphs, and two of them with the same vertices and adjacency give equal results (P_Twin.v). Functions calling adjacent are run on a record with the adjacency they effectively see.
C95 (structures built from digraphs): the constructions are specified for graphs whose neighbour lists may repeat (weak_wf in S_Multi.v), a digraph with symmetric adjacency is one, and its neighbour lists split into the arcs in and the arcs out, which gives the exact counts.
C96 (DTFGraph and DTFLayer as Graph and Digraph): the two trait implementations are records in M_DTFView.v with neighbours and out_neighbours panicking; each generic function is shown to call them first, invert is specified for any symmetric adjacency (weak_wf), in_neighbourhood and the degree maps by the layer specifications of P_DTF2.v.
C97 (iterators over neighbourhoods): every next function is the same state machine over the vertices still to come, with a different source of neighbours; a lemma drains it for any source, and the contents come from the specifications of the sources. The counts follow by pairing the rows with the list of edges or arcs.
C98 (VertexColouring as a map): the calls are folded over a finite map and related, by induction on the calls, to the list of pairs written since the last from_iter.
C99 (digraph functions depend neither on labels nor on hash order): a renaming relation between two digraphs, shown to be kept by every edit call; each query is compared through its exact description in C16, C19, C21, C67, C90 and C94.
C100 (quality of DTFGraph::domset): an invariant of the main loop with a ghost set S of the vertices chosen by the outer loop: a counter is the number of members of S a vertex is an in-neighbour of, it stays at most the cutoff outside the result and is exactly cutoff+1 for the vertices added by the counter; then double counting (P_DTFApprox.v).
C101 (origin of the arcs of an augmentation): one round adds an arc only for a reason kept by later rounds (arc_reason in P_DTF3.v, reasoned in P_DTFReason.v); forests by strong induction on the weight.
C102 (consequences of C57-C59): disjoint unions of the trace classes; halving X element by element for subsets; the subgraph on X and the vertices that see all of X but one has minimum degree |X| - 1 (P_Shatter.v).
C103 (linear-graph algorithms on the generators): maximal cliques of complete multipartite graphs are the choices of one vertex per part, those of triangle-free graphs the edges and isolated vertices (P_Families.v); C44, C41, C42 and C15 give the rest.
C104 (one edit): a graph that lacks at most one vertex and at most k edges at every other vertex has core numbers at most k smaller, by comparing the removal orders (P_Edits.v); components from connectivity with one more edge; bipartitions of a component are unique up to exchange; C22-C25, C41 and C42 give the answers.
C105 (degrees and sizes): double counting of the pairs (vertex, neighbour) against the edge set (P_Counts.v: handshake); for products the pairs are counted through the injective naming returned by the code; C27-C29, C31, C32 give the neighbourhoods. T_Counts.v also has C13_disj_union_offset, which pins the offset of disj_union to one more than the largest label.
C106 (algorithms on combined graphs): C27-C29 and C32 give the combined graph, C22-C25 the answers; vertices in different components of G are adjacent in the complement; the union of two orientations of out-degree d1 and d2 has out-degree at most d1+d2, so no subgraph has minimum degree above 2*(d1+d2) (out_degeneracy in P_Certify.v); embeddings (C90) for the monotone parts.
C107 (relations between answers): a search order gives each vertex that does not start a component an earlier neighbour, so counting earlier neighbours gives n <= m + c (P_Forest.v); the degeneracy order has at most one earlier neighbour per vertex if up <= 1, which bounds m and gives a 2-colouring; the sides of a bipartition bound the edges by an injection into L x R; the last (first) vertex of a clique in the order has all others as left (right) neighbours.
C108 (distances agree): C12, C22, C46, C50, C53-C55 relate each answer to walks; a shortest walk visits vertices of pairwise different distance, so it is shorter than the number of vertices; each component contains a vertex of a dominating set; a step changes the side of a bipartition.
C109 (saving and loading): C61 and C08 give the vertices and edges of h; adding the isolated vertices back one at a time changes the answers as in C104 (induction over the isolated vertices); the graph reached is G up to hash order, so the answers carry over by C87.
C110 (contraction): a step of G goes to a step or to nothing in h, and a step of h is a path of G when X is connected to c, both from C09_contract_into; induction over paths; components by C22 and the uniqueness of the partition; contract_pair by extensionality of reachable graphs.

## 4. Trusted base

* Coq 8.16.1 kernel, including its `vm_compute` (used for examples and refutation witnesses);
  the std++ definitions that occur in statements (`gmap`, `gset`, list functions).
* Axioms: none.  Every theorem of the `T_*.v` files prints "Closed under the global context".
* The correspondence of the model with the Rust text (by reading).  Every model definition cites
  the lines it models.  Semantics assumed of libraries: `HashMap`/`HashSet` (arbitrary iteration
  order, fixed during an iteration), `Vec`, slices, iterator adaptors, stable `sort_by_key`,
  `union-find-rs` (an abstract partition), `itertools` (`combinations`, `sum1`, `dedup`), `num`,
  `u32::from_str`, `split_whitespace`, `trim`, `lines`, `str::from_utf8`, `Path::extension` (Unix),
  `BufWriter`, flate2's `GzEncoder` (the end of the stream is written on drop, in two attempts, errors ignored).
* `R_Tests.v` transcribes 63 of the repository's unit tests and the 6 examples of its documentation and evaluates them on the model under two hash
  orders; all pass.  They check the correspondence above and prove nothing.  Tests on large data are left out
  or scaled down there.
* Overflow: additions on vertex labels wrap as in release builds (each such definition says so);
  underflow of counters, u32 overflow of radii and offsets, and failing `debug_assert!`s panic as in debug
  builds.  The positive theorems are stated where the two kinds of build agree.

### Modelled, by source file

| source | model |
|---|---|
| graph.rs | `M_Graph` (trait defaults), `M_Colouring` (44-272), `M_EditDigraph` (digraph traits), `M_Linear` |
| editgraph.rs, editdigraph.rs | `M_EditGraph`, `M_EditDigraph` |
| iterators.rs | `M_Iterators`, `M_EditDigraph` (arcs), `M_DTF` (321-432), `M_Linear` |
| operations.rs, compare.rs | `M_Operations` |
| algorithms/graph.rs | `M_Algorithms` |
| algorithms/lineargraph.rs | `M_Linear` (up to 245 and 600-700), `M_Domset` (247-600) |
| ordgraph.rs, degengraph.rs, reachgraph.rs | `M_OrdGraph`, `M_DegenGraph`, `M_ReachGraph` |
| dtfgraph.rs | `M_DTF` |
| datastructures/sreach_trace_oracle.rs | `M_Trace` |
| io.rs | `M_IO` (texts), `M_File` (bytes and files), `M_Write` (write errors) |

### Not modelled or simplified

* Memory: allocation, capacities (`with_capacity`, `n_estimate`), performance, Debug formatting,
  the re-exports in lib.rs and algorithms/mod.rs, tests.
* `neighbours` and `out_neighbours` of DTFGraph and DTFLayer and `ReachGraph::neighbours` are
  `unimplemented!()`; they are `Panic` (M_DTFView.v, M_ReachGraph.v).
* Container sizes, degrees and distances are `nat`.  Radii and distances that the code squares or
  doubles in u32 arithmetic are checked (`radius_ok`, `C46_large_radius_refuted`,
  `C49_large_distance_refuted`, `C55_domset_overflow`), as are packed-array offsets
  (DegenGraph, ReachGraph) and vertex labels produced by arithmetic.
* Sort keys in the dominating-set code are unbounded (`i64` in the code).
* The error kinds and data of io errors are modelled, not their message texts.  Write errors
  are modelled in `M_Write` only; the other io theorems are about writes that succeed.

## 5. Claims that are false of the code

Each has a theorem `..._refuted` with a witness; the `note` in MANIFEST.json says what holds instead.

* C07 loops are skipped by `vertices_and_edges`; C09 `contract_pair(u,u)` deletes u.
* C15, C66 degenerate generator sizes; C17 digraph `adjacent` is not symmetric; C19 digraph
  `disj_union`/`normalize` reorient arcs.
* C24 the degeneracy upper bound is below the real left degree on large cores.
* C26 the "odd cycle" repeats vertices; C31, C32 products lose isolated vertices.
* C35 swapping adjacent vertices of an OrdGraph leaves left-degrees wrong; C38 normalising an empty
  DegenGraph reads out of bounds; C43 DEPTH = 0; C68 `get_boundaries` is off by one.
* C44 wrong number of maximal cliques; C45 `colour_greedy` leaves vertices uncoloured or panics.
* C46, C49 witness colouring panics beyond 130 targets, large radii overflow; C47 recorded distances
  are only upper bounds; C49 odd distances, and non-vertex targets loop forever.
* C52, C73 `DTFGraph::arcs` drops arcs; hence C54 wrong distances and C72 lost edges; C55 large radii
  overflow; C56 `layer`/`add_arc` lower the depth or leave counters missing; C70 layer queries ignore
  the depth.
* C59 shattering test overflows; C61 isolated vertices are not written; C64 negative colours collide;
  C76 invalid UTF-8 and read errors panic.
* C89 `write_gzipped` can report success although the end of the stream was not written.
* C83 `right_bfs` and all that uses it panics on ReachGraphs.
* C77 on graphs with loops `degeneracy` repeats vertices, misses others, or underflows a degree.
* C94, C95 on digraphs antiparallel arcs count twice (degeneracy, OrdGraph, DegenGraph, `subdivide`),
  loops make the degeneracy-based constructions panic, and functions calling `adjacent` see one direction.
* C96 the complement and the degree maps of a DTFLayer are those of the whole DTFGraph.
