{"id": "C01", "title": "EditGraph editing refines an abstract graph", "statement": "Starting from EditGraph::new(), after any sequence of add_vertex, add_edge, remove_edge and remove_vertex calls, contains and adjacent answer exactly as an abstract finite set of vertices with a finite set of unordered edges (loops allowed) on which the same operations were performed; every call returns the boolean the abstract operation dictates (true iff it changed the graph), and no call panics.", "quantifier": "all finite sequences of editing calls with arbitrary u32 vertices, all hash iteration orders", "why_tests_cant": "the claim is over all histories; a test fixes one history and one hash order", "anchors": ["src/editgraph.rs:EditGraph::add_vertex", "src/editgraph.rs:EditGraph::add_edge", "src/editgraph.rs:EditGraph::remove_edge", "src/editgraph.rs:EditGraph::remove_vertex"]}
{"id": "C02", "title": "EditGraph counters are exact", "statement": "In every state reachable by editing calls, num_vertices is the number of vertices, num_edges is the number of edges, degree(u) is the number of edges incident to u with a loop counted twice (0 for absent vertices), and the degrees sum to twice num_edges. is_empty iff there are no vertices; degrees() maps exactly the vertices to their degree.", "quantifier": "all reachable EditGraph states", "why_tests_cant": "cached counters can drift after some untested interleaving of loops and removals", "anchors": ["src/editgraph.rs:num_vertices", "src/editgraph.rs:num_edges", "src/editgraph.rs:degree", "src/graph.rs:Graph::degrees", "src/graph.rs:Graph::is_empty"]}
{"id": "C03", "title": "EditGraph vertex and neighbour enumeration", "statement": "In every reachable state vertices() yields every vertex exactly once and nothing else; neighbours(u) of a contained u yields exactly the vertices adjacent to u, each once; neighbours(u) panics exactly if u is not contained.", "quantifier": "all reachable EditGraph states and all hash iteration orders", "why_tests_cant": "iteration order is unspecified and differs between states", "anchors": ["src/editgraph.rs:vertices", "src/editgraph.rs:neighbours", "src/iterators.rs:NeighIterator"]}
{"id": "C04", "title": "EditGraph equality is graph equality", "statement": "For two EditGraphs built by any two histories, == returns true exactly if they have the same vertices and the same edges; it is insensitive to history.", "quantifier": "all pairs of reachable EditGraph states", "why_tests_cant": "compares caches built along different histories", "anchors": ["src/editgraph.rs:PartialEq for EditGraph"]}
{"id": "C05", "title": "Clone of an EditGraph is equal to the original", "statement": "clone() never panics on a reachable EditGraph and returns a graph that has the same vertices, edges and counters, hence == to the original (and is itself well-formed).", "quantifier": "all reachable EditGraph states, all hash orders", "why_tests_cant": "clone re-inserts every edge from both sides; must be idempotent for every graph", "anchors": ["src/editgraph.rs:Clone for EditGraph"]}
{"id": "C06", "title": "edges() yields every edge exactly once", "statement": "For every reachable EditGraph, draining edges() yields each edge (loops included) exactly once, as a pair whose first component is not larger than the second, and nothing else; in particular the number of items equals num_edges.", "quantifier": "all reachable EditGraph states, all hash orders", "why_tests_cant": "tie-breaking interacts with iteration order and loops", "anchors": ["src/iterators.rs:EdgeIterator::next", "src/iterators.rs:EdgeIterable"]}
{"id": "C07", "title": "vertices_and_edges() yields every vertex and every edge exactly once", "statement": "For every reachable EditGraph, draining vertices_and_edges() yields every vertex exactly once and every edge exactly once (smaller endpoint first) and nothing else.", "quantifier": "all reachable EditGraph states, all hash orders", "why_tests_cant": "loops are never exercised by the tests", "anchors": ["src/iterators.rs:MixedIterator::next"]}
{"id": "C08", "title": "Bulk edits equal repeated single edits and report exact counts", "statement": "add_vertices/add_edges/from_iter have the same effect as adding the items one by one to the abstract graph, and add_vertices/add_edges return exactly the number of vertices resp. edges by which the abstract graph grew from those items; remove_loops removes exactly the loops and remove_isolates exactly the vertices of degree 0, each returning the number removed and leaving everything else unchanged.", "quantifier": "all reachable EditGraph states, all input sequences including duplicates", "why_tests_cant": "duplicate and pre-existing items", "anchors": ["src/graph.rs:MutableGraph::add_vertices", "src/graph.rs:MutableGraph::add_edges", "src/graph.rs:MutableGraph::remove_loops", "src/graph.rs:MutableGraph::remove_isolates", "src/editgraph.rs:FromIterator"]}
{"id": "C09", "title": "Contraction", "statement": "contract_pair(u,v), contract(X) and contract_into(c,X) leave exactly the vertices not contracted away, with the centre adjacent to exactly the vertices outside the contracted set that were adjacent to the centre or to a contracted vertex (plus an existing loop at the centre), all edges between other remaining vertices unchanged; contract returns the first vertex; contract_pair panics if either vertex is missing and contract panics on an empty sequence.", "quantifier": "all reachable EditGraph states, all vertex sequences of contained vertices", "why_tests_cant": "adjacent/non-adjacent pairs, duplicates, loops, centre inside the list", "anchors": ["src/editgraph.rs:contract", "src/editgraph.rs:contract_pair", "src/editgraph.rs:contract_into"]}
{"id": "C10", "title": "Induced subgraphs", "statement": "subgraph(X) of a graph for X a sequence of contained vertices (duplicates allowed) has exactly the vertices in X, and two of them are adjacent in it exactly if they are adjacent in the original graph.", "quantifier": "all well-formed graphs and vertex sequences", "why_tests_cant": "all subsets", "anchors": ["src/graph.rs:Graph::subgraph"]}
{"id": "C11", "title": "Open and closed neighbourhoods", "statement": "neighbourhood(X) is exactly the set of vertices outside X with a neighbour in X; closed_neighbourhood(X) is exactly X together with all neighbours of X.", "quantifier": "all well-formed graphs and vertex sequences of contained vertices", "why_tests_cant": "all subsets", "anchors": ["src/graph.rs:Graph::neighbourhood", "src/graph.rs:Graph::closed_neighbourhood"]}
{"id": "C12", "title": "r-neighbourhoods are distance balls", "statement": "r_neighbourhood(X,r) returns exactly the vertices reachable from some member of X by a walk of at most r edges; r_neighbours(u,r) is the ball of radius r around u.", "quantifier": "all well-formed graphs, all X, all r", "why_tests_cant": "unbounded r and graph", "anchors": ["src/graph.rs:Graph::r_neighbourhood", "src/graph.rs:Graph::r_neighbours"]}
{"id": "C13", "title": "Disjoint union", "statement": "disj_union(G,H) contains G unchanged and a copy of H whose vertices are shifted by a constant offset, with no edges between the two parts and no label clash; disj_unions folds disj_union.", "quantifier": "all pairs of graphs whose labels fit u32 after shifting", "why_tests_cant": "labels near u32::MAX and empty graphs", "anchors": ["src/editgraph.rs:disj_union", "src/editgraph.rs:disj_unions"]}
{"id": "C14", "title": "normalize relabels order-isomorphically to 0..n-1", "statement": "normalize() returns a graph on exactly 0..n-1 and a map from new to old vertices that is a strictly increasing bijection onto the old vertices under which adjacency is preserved in both directions; num_edges is unchanged.", "quantifier": "all reachable EditGraph states", "why_tests_cant": "arbitrary sparse labels", "anchors": ["src/editgraph.rs:normalize"]}
{"id": "C15", "title": "Named graph generators", "statement": "path(n), cycle(n), matching(n), star(n), clique(n), independent(n), biclique(s,t), complete_kpartite(sizes) and grid(s,t) produce exactly the documented vertex set and edge set.", "quantifier": "all parameter values (without u32 overflow)", "why_tests_cant": "off-by-one errors at degenerate parameters", "anchors": ["src/editgraph.rs:path", "src/editgraph.rs:cycle", "src/editgraph.rs:matching", "src/editgraph.rs:star", "src/editgraph.rs:clique", "src/editgraph.rs:independent", "src/editgraph.rs:biclique", "src/editgraph.rs:complete_kpartite", "src/editgraph.rs:grid"]}
{"id": "C16", "title": "EditDigraph editing refines an abstract digraph", "statement": "After any sequence of add_vertex, add_arc, remove_arc, remove_vertex from EditDigraph::new(): contains, has_arc, in_neighbours, out_neighbours, in_degree, out_degree, degree, num_vertices, num_edges are exactly those of the abstract digraph on which the same operations were performed, return values say whether the digraph changed, and no call panics.", "quantifier": "all finite histories", "why_tests_cant": "in/out tables and four caches must agree forever", "anchors": ["src/editdigraph.rs:add_vertex", "src/editdigraph.rs:add_arc", "src/editdigraph.rs:remove_arc", "src/editdigraph.rs:remove_vertex", "src/editdigraph.rs:in_degree", "src/editdigraph.rs:out_degree"]}
{"id": "C17", "title": "Digraph adjacency is undirected", "statement": "Through the Graph trait a digraph behaves like its underlying undirected graph: adjacent(u,v) is true exactly if there is an arc uv or an arc vu (so it is symmetric and consistent with neighbours()).", "quantifier": "all reachable EditDigraph states and pairs", "why_tests_cant": "the unit tests never query the reverse direction", "anchors": ["src/editdigraph.rs:adjacent", "src/editdigraph.rs:neighbours", "src/graph.rs:Digraph"]}
{"id": "C18", "title": "arcs() yields every arc exactly once", "statement": "For every reachable EditDigraph draining arcs() yields every arc (u,v) exactly once, in tail-head order, and nothing else; its length is num_edges.", "quantifier": "all reachable EditDigraph states, all hash orders", "why_tests_cant": "iteration order", "anchors": ["src/iterators.rs:ArcIterator::next", "src/iterators.rs:DiNeighIterator"]}
{"id": "C19", "title": "EditDigraph disj_union and normalize preserve the arcs", "statement": "disj_union and normalize of EditDigraphs preserve vertices and arcs with their orientation (up to the documented relabelling).", "quantifier": "all reachable EditDigraph states", "why_tests_cant": "orientation against label order", "anchors": ["src/editdigraph.rs:disj_union", "src/editdigraph.rs:normalize"]}
{"id": "C20", "title": "EditDigraph equality and clone", "statement": "== on EditDigraph is exactly equality of vertex and arc sets for any two histories, and clone() is == to the original.", "quantifier": "all pairs of reachable EditDigraph states", "why_tests_cant": "history independence of caches", "anchors": ["src/editdigraph.rs:PartialEq for EditDigraph", "src/editdigraph.rs:Clone for EditDigraph"]}
{"id": "C21", "title": "Digraph in/out neighbourhoods", "statement": "in_neighbourhood(X) / out_neighbourhood(X) are exactly the vertices outside X with an arc into / out of X; in_degrees/out_degrees list exactly the vertices with their degrees.", "quantifier": "all reachable EditDigraph states and contained X", "why_tests_cant": "all subsets", "anchors": ["src/graph.rs:Digraph::in_neighbourhood", "src/graph.rs:Digraph::out_neighbourhood", "src/graph.rs:Digraph::in_degrees"]}
{"id": "C22", "title": "components() are the connected components", "statement": "components() returns pairwise disjoint non-empty sets that cover exactly the vertices, and two vertices are in the same set exactly if they are joined by a walk.", "quantifier": "all well-formed graphs", "why_tests_cant": "unbounded graphs", "anchors": ["src/algorithms/graph.rs:components"]}
{"id": "C23", "title": "degeneracy() returns an ordering of the vertices", "statement": "For a loopless graph degeneracy() terminates without panic; the returned order contains every vertex exactly once and core numbers are assigned to exactly the vertices.", "quantifier": "all loopless well-formed graphs, all hash orders (bucket choices)", "why_tests_cant": "bucket bookkeeping must never lose or duplicate a vertex", "anchors": ["src/algorithms/graph.rs:degeneracy"]}
{"id": "C24", "title": "degeneracy() bounds", "statement": "The first component is a lower bound on the degeneracy (some non-empty subgraph has that minimum degree), the second is an upper bound (every vertex has at most that many neighbours left of it in the returned order); core numbers are non-increasing along the order and every vertex has at most core-number many left neighbours.", "quantifier": "all loopless well-formed graphs, all bucket choices", "why_tests_cant": "only graphs of degeneracy above 128 exercise the exponential buckets", "anchors": ["src/algorithms/graph.rs:degeneracy", "src/algorithms/graph.rs:calc_index"]}
{"id": "C25", "title": "is_bipartite: bipartition witness", "statement": "If is_bipartite returns Bipartition(L,R) then L and R partition the vertex set and every edge has one endpoint in each; it returns a bipartition exactly if the graph is 2-colourable; it never panics and terminates.", "quantifier": "all well-formed graphs (loops allowed), all hash orders", "why_tests_cant": "every graph and DFS order", "anchors": ["src/algorithms/graph.rs:is_bipartite"]}
{"id": "C26", "title": "is_bipartite: odd cycle witness", "statement": "If is_bipartite returns OddCycle(c) then c is a cyclic sequence of odd length in which consecutive vertices (and last/first) are adjacent, and it is a cycle: no vertex repeats.", "quantifier": "all well-formed graphs, all hash orders", "why_tests_cant": "witness shape depends on the DFS tree", "anchors": ["src/algorithms/graph.rs:is_bipartite", "src/algorithms/graph.rs:BipartiteWitness::OddCycle"]}
{"id": "C27", "title": "Complement", "statement": "invert() has the same vertices and joins two distinct vertices exactly if they are not adjacent in the input; it has no loops; invert(invert(G)) is G without loops.", "quantifier": "all well-formed graphs", "why_tests_cant": "all graphs", "anchors": ["src/operations.rs:invert"]}
{"id": "C28", "title": "Merge", "statement": "merge(G,H) has exactly the union of the vertices and the union of the edges.", "quantifier": "all pairs of well-formed graphs", "why_tests_cant": "all graphs", "anchors": ["src/operations.rs:merge"]}
{"id": "C29", "title": "Intersection", "statement": "intersect(G,H) has exactly the common vertices and the common edges.", "quantifier": "all pairs of well-formed graphs", "why_tests_cant": "all graphs", "anchors": ["src/operations.rs:intersect"]}
{"id": "C30", "title": "Subdivision", "statement": "subdivide(k) keeps the original vertices and replaces every edge by its own path with k fresh inner vertices: n + k*m vertices and (k+1)*m edges; inner vertices have degree two, original vertices keep their degree, subdivide(0) is a copy.", "quantifier": "all loopless well-formed graphs, all k without u32 overflow", "why_tests_cant": "id allocation across edges", "anchors": ["src/operations.rs:subdivide"]}
{"id": "C31", "title": "Cartesian product", "statement": "cartesian_product(G,H) returns a graph and a bijection from its vertices onto V(G)xV(H) under which (u,v),(u',v') are adjacent exactly if u=u' and vv' is an edge of H or v=v' and uu' is an edge of G; its vertex set is all of V(G)xV(H).", "quantifier": "all pairs of well-formed graphs with |V(G)||V(H)| <= 2^32", "why_tests_cant": "isolated vertices never tested", "anchors": ["src/operations.rs:cartesian_product"]}
{"id": "C32", "title": "Lexicographic product", "statement": "lexicographic_product(G,H) returns a graph and a bijection from its vertices onto V(G)xV(H) under which (u,v),(u',v') are adjacent exactly if vv' is an edge of H, or v=v' and uu' is an edge of G; its vertex set is all of V(G)xV(H).", "quantifier": "all pairs of well-formed graphs with |V(G)||V(H)| <= 2^32", "why_tests_cant": "isolated vertices never tested", "anchors": ["src/operations.rs:lexicographic_product"]}
{"id": "C33", "title": "Subgraph comparison", "statement": "compare_subgraph(G,H) returns Eq, Sub, Sup or Incomp exactly according to whether G is a subgraph of H and/or H of G (vertex and edge containment).", "quantifier": "all pairs of well-formed graphs", "why_tests_cant": "all graphs", "anchors": ["src/compare.rs:compare_subgraph"]}
{"id": "C34", "title": "OrdGraph construction", "statement": "OrdGraph::with_ordering(G, order) for a duplicate-free order covering the vertices of a loopless G represents the same graph: same adjacency, degrees, edge count, vertices() lists the order, index_of(u) is u's position, left_neighbours(u) / right_neighbours(u) list exactly the neighbours before / after u sorted by position, left_degree/right_degree are their sizes. A duplicate in the order or a missing endpoint panics.", "quantifier": "all loopless well-formed graphs and all orders", "why_tests_cant": "all orders", "anchors": ["src/ordgraph.rs:with_ordering", "src/ordgraph.rs:left_neighbours", "src/ordgraph.rs:right_neighbours", "src/ordgraph.rs:by_degeneracy"]}
{"id": "C35", "title": "OrdGraph::swap", "statement": "swap(u,v) exchanges the positions of u and v, leaves every other position and the underlying graph unchanged, and afterwards left/right neighbourhoods again list exactly the neighbours before/after each vertex. swap with an absent vertex or u=v changes nothing.", "quantifier": "all OrdGraphs built from loopless graphs, all pairs u,v", "why_tests_cant": "adjacent vs non-adjacent pairs and all relative positions", "anchors": ["src/ordgraph.rs:swap"]}
{"id": "C36", "title": "leftmost and rightmost", "statement": "leftmost(X)/rightmost(X) return None exactly for empty X and otherwise a member of X whose position is minimal/maximal.", "quantifier": "all linear graphs and non-empty sequences of contained vertices", "why_tests_cant": "all sequences", "anchors": ["src/graph.rs:LinearGraph::leftmost", "src/graph.rs:LinearGraph::rightmost"]}
{"id": "C37", "title": "DegenGraph construction", "statement": "DegenGraph::with_ordering(G, order) for a loopless G and an enumeration of its vertices represents the same graph: vertices() and iter() follow the order, left_neighbours(u) lists exactly the neighbours before u sorted by position, right_neighbours(u) exactly those after u, adjacent/adjacent_ordered/degree/left_degree/right_degree/num_vertices/num_edges/first agree with G and the order, index_of is strictly increasing along the order; no out-of-bounds access happens.", "quantifier": "all loopless well-formed graphs and all orders", "why_tests_cant": "pointer arithmetic in the packed array for every layout", "anchors": ["src/degengraph.rs:with_ordering", "src/degengraph.rs:DegenGraphBuilder::append", "src/degengraph.rs:DegenOrderIterator", "src/degengraph.rs:DegenIterator"]}
{"id": "C38", "title": "DegenGraph::normalize", "statement": "normalize() relabels the vertices of a DegenGraph by their position in the ordering; the returned map sends new to old names; adjacency, left/right neighbourhoods, iteration order and counters are preserved under the map.", "quantifier": "all DegenGraphs built from loopless graphs", "why_tests_cant": "in-place rewriting of the packed array via unchecked indexing", "anchors": ["src/degengraph.rs:normalize"]}
{"id": "C39", "title": "OrdGraph to DegenGraph conversion", "statement": "to_degeneracy_graph() yields a DegenGraph with the same ordering and the same left neighbourhoods/adjacency as the OrdGraph.", "quantifier": "all OrdGraphs built by with_ordering", "why_tests_cant": "all orders", "anchors": ["src/ordgraph.rs:to_degeneracy_graph"]}
{"id": "C40", "title": "right_bfs layers", "statement": "right_bfs(u,r) returns r+1 sets; layer 0 is {u} and layer d contains exactly the vertices whose distance from u in the subgraph induced by u and the vertices right of u is d.", "quantifier": "all linear graphs, all u, r", "why_tests_cant": "unbounded graph and depth", "anchors": ["src/algorithms/lineargraph.rs:right_bfs"]}
{"id": "C41", "title": "Strong reachability", "statement": "sreach_set(u,r) for r>=1 maps exactly the vertices v left of u that are joined to u by a walk of at most r edges whose vertices other than v are u or right of u, to the least such length; sreach_sets and sreach_sizes agree with it for every vertex.", "quantifier": "all linear graphs, all u, r>=1", "why_tests_cant": "unbounded graph and depth", "anchors": ["src/algorithms/lineargraph.rs:sreach_set", "src/algorithms/lineargraph.rs:sreach_sets", "src/algorithms/lineargraph.rs:sreach_sizes"]}
{"id": "C42", "title": "Weak reachability", "statement": "wreach_sets(r) maps every vertex u to exactly the vertices v left of u joined to u by a walk of at most r edges whose leftmost vertex is v (all other vertices right of v), with the least such length; wreach_sizes gives the sizes of these sets.", "quantifier": "all linear graphs, all r", "why_tests_cant": "unbounded graph and depth", "anchors": ["src/algorithms/lineargraph.rs:wreach_sets", "src/algorithms/lineargraph.rs:wreach_sizes"]}
{"id": "C43", "title": "ReachGraph stores the reachability maps faithfully", "statement": "For a sequence of builder appends of distinct vertices with distances in 1..=DEPTH: iteration returns the vertices in append order; reachables(u).at(d) is exactly the list of vertices at distance d sorted by order, reachables_all their concatenation, len their number; adjacent/degree/left_neighbours/right_degree/num_edges reflect the distance-1 pairs.", "quantifier": "all append sequences and depths", "why_tests_cant": "offset arithmetic in the packed array", "anchors": ["src/reachgraph.rs:ReachGraphBuilder::append", "src/reachgraph.rs:reachables_at", "src/reachgraph.rs:ReachIterator", "src/ordgraph.rs:to_wreach_graph", "src/ordgraph.rs:to_sreach_graph"]}
{"id": "C44", "title": "Maximal clique count", "statement": "count_max_cliques() equals the number of inclusion-maximal cliques of the graph.", "quantifier": "all linear graphs", "why_tests_cant": "all graphs", "anchors": ["src/algorithms/lineargraph.rs:count_max_cliques", "src/algorithms/lineargraph.rs:bk_pivot_count"]}
{"id": "C45", "title": "Greedy colouring", "statement": "colour_greedy() never panics, colours every vertex, adjacent vertices get different colours, and it uses at most max_left_degree+1 colours.", "quantifier": "all loopless linear graphs", "why_tests_cant": "colour reuse patterns", "anchors": ["src/algorithms/lineargraph.rs:colour_greedy"]}
{"id": "C46", "title": "Dominating sets dominate", "statement": "domset(r,_) and domset_with_target(r,_,T) return a set D such that every vertex of T (of the graph) has distance at most r to a member of D; the returned distance of a target vertex is at most r and is an upper bound on its distance to D; D consists of vertices of the graph; no panic.", "quantifier": "all linear graphs, radii, targets, hash orders", "why_tests_cant": "greedy counters and domination propagation", "anchors": ["src/algorithms/lineargraph.rs:domset", "src/algorithms/lineargraph.rs:domset_with_target"]}
{"id": "C47", "title": "Returned domination distances are exact", "statement": "The vertex map returned by domset contains the minimum distance of every vertex to the dominating set.", "quantifier": "all linear graphs and radii", "why_tests_cant": "needs a global shortest-path comparison", "anchors": ["src/algorithms/lineargraph.rs:domset (doc comment)"]}
{"id": "C48", "title": "Domination witness is scattered", "statement": "With witness=true, the returned colouring colours only members of the dominating set that are targets, and two distinct vertices of the same colour have distance at least 2r+1.", "quantifier": "all linear graphs, radii, targets", "why_tests_cant": "pairwise distances in every graph", "anchors": ["src/algorithms/lineargraph.rs:domset_with_target"]}
{"id": "C49", "title": "Scattered colouring", "statement": "scattered_colouring(d,T) terminates and returns disjoint non-empty classes covering exactly T such that two distinct vertices of the same class have distance at least d.", "quantifier": "all linear graphs, all d, all targets T", "why_tests_cant": "parity of d and merge order", "anchors": ["src/algorithms/lineargraph.rs:scattered_colouring", "src/algorithms/lineargraph.rs:small_distance_sets"]}
{"id": "C50", "title": "Distances from weak reachability", "statement": "small_distance over wreach sets of depth >= d returns Some(dist(x,y)) exactly if the distance of x and y is at most d and None otherwise.", "quantifier": "all linear graphs, x, y, d", "why_tests_cant": "all pairs in all graphs", "anchors": ["src/algorithms/lineargraph.rs:small_distance", "src/algorithms/lineargraph.rs:small_distance_sets"]}
{"id": "C51", "title": "DTFGraph::orient", "statement": "orient(G) of a loopless graph contains every vertex and for each edge exactly one of the two arcs, all following one linear order (acyclic), has_arc/in_degree/out_degree/num_edges are exact and no other arcs exist.", "quantifier": "all loopless well-formed graphs", "why_tests_cant": "all degeneracy orders", "anchors": ["src/dtfgraph.rs:orient", "src/dtfgraph.rs:add_arc"]}
{"id": "C52", "title": "DTFGraph::arcs yields every arc", "statement": "arcs() / arcs_at(d) yield every arc (resp. every arc of weight d) of the augmentation exactly once in tail-head order.", "quantifier": "all DTFGraphs", "why_tests_cant": "tie-breaking drops arcs depending on labels", "anchors": ["src/iterators.rs:DTFArcIterator::next", "src/dtfgraph.rs:arcs"]}
{"id": "C53", "title": "Augmentation weights never underestimate distances", "statement": "After orient and any number of augment calls, every arc of weight w joins two vertices at distance at most w in the original graph (and distinct vertices); hence small_distance(u,v)=Some(d) for u<>v implies distance <= d <= depth. Vertices and weight-1 arcs are unchanged by augmentation.", "quantifier": "all loopless graphs, target depths, lookahead parameters, hash orders", "why_tests_cant": "every augmentation history", "anchors": ["src/dtfgraph.rs:augment", "src/dtfgraph.rs:small_distance"]}
{"id": "C54", "title": "small_distance is exact up to the augmentation depth", "statement": "After augment(depth,_), small_distance(u,v) is Some(dist) exactly for vertices with distance dist <= depth and None for all others.", "quantifier": "all loopless graphs and depths", "why_tests_cant": "the only distance test is disabled in the source", "anchors": ["src/dtfgraph.rs:small_distance", "src/dtfgraph.rs:augment"]}
{"id": "C55", "title": "DTFGraph::domset dominates", "statement": "DTFGraph::domset(r) returns a set D such that every vertex has distance at most r to a member of D in the original graph.", "quantifier": "all loopless graphs and radii", "why_tests_cant": "every graph", "anchors": ["src/dtfgraph.rs:domset"]}
{"id": "C56", "title": "Augmentation depth never decreases", "statement": "No call on a DTFGraph lowers get_depth(), and num_arcs_at_depth(d) is the number of arcs of weight d.", "quantifier": "all histories of DTFGraph calls", "why_tests_cant": "interleavings of add_arc at different depths", "anchors": ["src/dtfgraph.rs:reserve_depth", "src/dtfgraph.rs:add_arc", "src/dtfgraph.rs:layer"]}
{"id": "C57", "title": "Trace oracle counts traces exactly", "statement": "compute_traces(X) for X sorted by the order maps each subset S of X occurring as key to exactly the number of vertices outside X whose neighbourhood intersects X in S, and every subset with a non-zero number occurs; no counter underflows and the unchecked accesses hit existing keys.", "quantifier": "all DegenGraphs of loopless graphs, all duplicate-free sorted X", "why_tests_cant": "inclusion-exclusion corrections for every graph", "anchors": ["src/datastructures/sreach_trace_oracle.rs:compute_traces", "src/datastructures/sreach_trace_oracle.rs:for_graph"]}
{"id": "C58", "title": "Trace oracle neighbour count", "statement": "compute_neighbour_count(X) equals the number of vertices outside X with at least one neighbour in X.", "quantifier": "all DegenGraphs of loopless graphs, all duplicate-free sorted X", "why_tests_cant": "double counting corrections", "anchors": ["src/datastructures/sreach_trace_oracle.rs:compute_neighbour_count"]}
{"id": "C59", "title": "Shattering test", "statement": "is_shattered(X,k) returns true exactly if each of the 2^|X| subsets S of X is the trace of at least 2^(k-|X|) vertices outside X.", "quantifier": "all DegenGraphs of loopless graphs, all duplicate-free X, k>=|X|", "why_tests_cant": "exponentially many subsets", "anchors": ["src/datastructures/sreach_trace_oracle.rs:is_shattered"]}
{"id": "C60", "title": "Vertex set and vertex list files round-trip", "statement": "Writing a VertexSet or Vec<Vertex> and reading the text back yields the same set resp. list.", "quantifier": "all sets/lists of u32 values", "why_tests_cant": "all values and orders", "anchors": ["src/io.rs:WriteToFile for VertexSet", "src/io.rs:LoadFromFile for Vec<Vertex>", "src/io.rs:parse_vertex"]}
{"id": "C61", "title": "Graph files round-trip", "statement": "Writing a graph and reading it back yields the same graph.", "quantifier": "all reachable EditGraph states, all hash orders", "why_tests_cant": "isolated vertices are not tested", "anchors": ["src/io.rs:WriteToFile for G", "src/io.rs:LoadFromFile for EditGraph"]}
{"id": "C62", "title": "Graph loading accepts exactly well-formed edge lists", "statement": "Loading a text returns Ok exactly if every line consists of exactly two whitespace-separated tokens that are decimal u32 numbers (optional leading +), and the result is then the graph with exactly these edges; otherwise an InvalidData error is returned; it never panics on valid UTF-8.", "quantifier": "all input texts", "why_tests_cant": "arbitrary text", "anchors": ["src/io.rs:from_buf", "src/io.rs:from_buf_with_estimate", "src/io.rs:parse_vertex"]}
{"id": "C63", "title": "Vertex map inversion and majority set", "statement": "invert() groups exactly the vertices by their values (every group non-empty); majority_set() is None exactly for the empty map and otherwise returns a value with the set of all vertices having it, of maximum size.", "quantifier": "all vertex maps, all hash orders", "why_tests_cant": "ties", "anchors": ["src/graph.rs:VertexMapOperations"]}
{"id": "C64", "title": "disjoint_extend keeps colours and never mixes", "statement": "disjoint_extend(other) keeps all existing colours, colours exactly the union of the vertices, gives newly coloured vertices equal colours exactly if they had equal colours in other, and no new vertex shares a colour with an old one.", "quantifier": "all colourings (without arithmetic overflow)", "why_tests_cant": "negative colours, overlaps", "anchors": ["src/graph.rs:VertexColouring::disjoint_extend"]}
{"id": "C65", "title": "Vertex/edge intersection", "statement": "intersects(a,b) holds exactly if the two objects share a vertex and is symmetric; intersection returns an edge exactly for equal edges (in either orientation), otherwise a shared vertex, or None if disjoint.", "quantifier": "all pairs of vertices/edges", "why_tests_cant": "all orientations and loops", "anchors": ["src/graph.rs:VertexOrEdge::intersection"]}
{"id": "C66", "title": "EditDigraph generators", "statement": "path, cycle, matching, clique, independent, biclique, star and grid of EditDigraph produce exactly the digraph described by their documentation (vertices 0..n-1, arcs oriented from smaller/earlier to larger/later vertices) for every parameter.", "quantifier": "all parameters whose labels fit into u32", "why_tests_cant": "parameters are unbounded; degenerate sizes", "anchors": ["src/editdigraph.rs:EditDigraph::path", "src/editdigraph.rs:EditDigraph::grid"]}
{"id": "C67", "title": "EditDigraph bulk edits", "statement": "from_iter builds exactly the digraph of the given arcs; remove_loops removes exactly the loops and returns their number; remove_isolates removes exactly the vertices without any in- or out-arc and returns their number; add_vertices and add_arcs add exactly the given vertices and arcs (with their ends) and return how many were new.", "quantifier": "all reachable digraphs, all arc lists, all hash orders", "why_tests_cant": "unbounded digraphs", "anchors": ["src/graph.rs:MutableDigraph", "src/editdigraph.rs:EditDigraph::from_iter"]}
{"id": "C68", "title": "Boundaries of the stored reachability segments", "statement": "Reachables::get_boundaries(d) returns, for every 1 <= d <= DEPTH, the indices (lo,hi) such that contents[lo..hi] is reachables.at(d).", "quantifier": "all append sequences, vertices and depths", "why_tests_cant": "private helper without a test; index arithmetic", "anchors": ["src/reachgraph.rs:Reachables::get_boundaries"]}
{"id": "C69", "title": "Colouring restriction and colourings from sets", "statement": "subset(vertices) keeps exactly the colours of the listed coloured vertices; from_sets colours exactly the union of the sets and gives every vertex the index of the last set containing it, so for disjoint sets two vertices have equal colours exactly if they lie in a common set; colours() lists every used colour exactly once.", "quantifier": "all colourings, vertex lists, sequences of fewer than 2^32 sets, hash orders", "why_tests_cant": "overlapping sets, repeated vertices", "anchors": ["src/graph.rs:VertexColouring::subset", "src/graph.rs:IntegerColouring::from_sets", "src/graph.rs:VertexColouring::colours"]}
{"id": "C70", "title": "DTFLayer is the graph of one weight", "statement": "The view returned by layer(d) has exactly the arcs of weight d: has_arc, adjacent, in_neighbours, in_degree, out_degree, degree and num_edges all refer to these arcs only.", "quantifier": "all augmentations reachable from orient by augment, domset and layer, all weights up to the depth", "why_tests_cant": "every augmentation and weight", "anchors": ["src/dtfgraph.rs:DTFLayer", "src/dtfgraph.rs:layer"]}
{"id": "C71", "title": "Arc weights agree between all DTF queries", "statement": "In an augmentation every arc has exactly one weight; get_arc_depth, in_neighbours_with_weights, has_arc, has_arc_at, in_neighbours, in_degree, out_degree, degree and adjacent all describe the same weighted arcs.", "quantifier": "all graphs reachable from orient by augment and domset", "why_tests_cant": "every augmentation history", "anchors": ["src/dtfgraph.rs:get_arc_depth", "src/dtfgraph.rs:in_neighbours_with_weights", "src/dtfgraph.rs:has_arc"]}
{"id": "C72", "title": "orient_deep orients every edge", "statement": "orient_deep(G, d) has the vertices of G and for each edge of G exactly one of its two arcs, acyclically, and no other arcs.", "quantifier": "all loopless graphs and look-ahead depths", "why_tests_cant": "label-dependent loss of arcs", "anchors": ["src/dtfgraph.rs:orient_deep"]}
{"id": "C73", "title": "to_undirected and edge_subgraph of a DTFGraph", "statement": "to_undirected returns the underlying undirected graph of all arcs; edge_subgraph(E) keeps the vertices and exactly the arcs whose ends form a pair of E, with weight 1.", "quantifier": "all reachable DTFGraphs, all lists of pairs", "why_tests_cant": "label-dependent loss of arcs", "anchors": ["src/dtfgraph.rs:to_undirected", "src/dtfgraph.rs:edge_subgraph"]}
{"id": "C74", "title": "Vertex list and vertex set loading accepts exactly well-formed files", "statement": "Loading a VertexSet or Vec<Vertex> from a text returns Ok exactly if every line, apart from surrounding whitespace, is a decimal u32 number with optional plus sign; the result is then these numbers in order resp. as a set; otherwise an InvalidData error naming the first malformed line is returned.", "quantifier": "all input texts", "why_tests_cant": "arbitrary text: blank lines, CRLF, signs, overflow", "anchors": ["src/io.rs:LoadFromFile for VertexSet", "src/io.rs:LoadFromFile for Vec<Vertex>", "src/io.rs:parse_vertex"]}
{"id": "C75", "title": "Files round-trip and from_file chooses the reader by extension", "statement": "from_file behaves as from_txt if the file name has extension txt, as from_gzipped if it has extension gz, and otherwise returns an InvalidInput error. A vertex list, vertex set or graph written with write_txt (write_gzipped) is read back unchanged by from_txt (from_gzipped), and by from_file if the name has the matching extension; other files are not affected. A file whose text has a malformed line makes from_txt, from_gzipped and from_file return the data error of the first such line.", "quantifier": "all file names, all file system states, all lists/sets/graphs of u32 vertices, any lossless gzip codec", "why_tests_cant": "arbitrary file names (dots, slashes, trailing components) and arbitrary contents", "anchors": ["src/io.rs:open_reader", "src/io.rs:LoadFromFile", "src/io.rs:WriteToFile"]}
{"id": "C76", "title": "Loading never panics on bad bytes", "statement": "from_buf on arbitrary bytes never panics: it returns the value denoted by the text if the bytes are the UTF-8 encoding of a well-formed text, and an InvalidData error otherwise, also for bytes that are not UTF-8 and for read errors.", "quantifier": "all byte sequences, with or without a read error at their end", "why_tests_cant": "arbitrary bytes; errors at any position", "anchors": ["src/io.rs:from_buf", "src/io.rs:from_buf_with_estimate"]}
{"id": "C77", "title": "degeneracy() on graphs with loops", "statement": "degeneracy() also terminates without panic on graphs with loops and the returned order lists every vertex exactly once, with core numbers for exactly the vertices.", "quantifier": "all well-formed graphs, loops allowed, all hash orders", "why_tests_cant": "a vertex with a loop is put back into the buckets while it is being removed; whether this matters depends on the degrees of all other vertices", "anchors": ["src/algorithms/graph.rs:degeneracy"]}
{"id": "C78", "title": "OrdGraph built from a graph with loops", "statement": "with_ordering on a graph with loops and a duplicate-free covering order does not panic and agrees with the graph in vertices, adjacency, degrees and edge count; a vertex with a loop is its own left and right neighbour and occurs twice among its neighbours, everything else is as for loopless graphs. by_degeneracy never returns an OrdGraph with a missing or repeated vertex: if it returns, the order enumerates the vertices of the graph.", "quantifier": "all well-formed graphs, loops allowed, all orders, all hash orders", "why_tests_cant": "all graphs and orders; the assertion must catch every incomplete order", "anchors": ["src/ordgraph.rs:with_ordering", "src/ordgraph.rs:by_degeneracy"]}
{"id": "C79", "title": "DegenGraph construction drops loops", "statement": "DegenGraph::with_ordering applied to a graph with loops yields the DegenGraph of the graph without its loops: same order, adjacency, neighbourhoods and counters as that graph.", "quantifier": "all well-formed graphs, loops allowed, all enumerations of the vertices that fit in u32 offsets", "why_tests_cant": "all graphs and orders", "anchors": ["src/degengraph.rs:with_ordering"]}
{"id": "C80", "title": "Approximation guarantee of LinearGraph::domset", "statement": "If every vertex weakly r-reaches at most w vertices in the given order, the set returned by domset_with_target for radius r has at most |X|*(w+1)*(w+1+4r^2) vertices, for every set X that dominates the targets at distance r; with or without a witness.", "quantifier": "all well-formed linear graphs, radii, target lists, dominating sets X, hash orders", "why_tests_cant": "needs the optimum and all graphs", "anchors": ["src/algorithms/lineargraph.rs:domset_with_target"]}
{"id": "C81", "title": "The domset witness is a lower-bound certificate", "statement": "Every colour class of the witness returned by domset_with_target has at most as many vertices as any set that r-dominates the targets, so the returned set and its witness bracket the optimum.", "quantifier": "all well-formed linear graphs, radii, target lists, dominating sets, hash orders; that the call returns: up to 130 targets", "why_tests_cant": "needs the optimum and all graphs", "anchors": ["src/algorithms/lineargraph.rs:domset_with_target"]}
{"id": "C82", "title": "Results depend only on the ordered graph", "statement": "On two linear graphs with the same order and the same edges, whatever their data structure and whatever the hash order of each run, right_bfs, wreach_sets, wreach_sizes, sreach_set, sreach_sets, sreach_sizes, count_max_cliques, colour_greedy and domset without witness return the same value or fail alike; with a witness the dominating sets and distances agree. OrdGraph and DegenGraph built from the same EditGraph and order are such a pair.", "quantifier": "all pairs of well-formed linear graphs, all pairs of hash orders, all radii and targets", "why_tests_cant": "hash order is randomised per process; a test compares only the orders it happens to see", "anchors": ["src/algorithms/lineargraph.rs", "src/degengraph.rs:with_ordering", "src/ordgraph.rs:with_ordering"]}
{"id": "C83", "title": "Linear-graph algorithms on a ReachGraph", "statement": "A ReachGraph implements LinearGraph, so every algorithm of LinearGraphAlgorithms gives on it the result it gives on the OrdGraph it was built from.", "quantifier": "all well-formed linear graphs, all depths and radii, all pairs of hash orders", "why_tests_cant": "all graphs and radii; the trait bound compiles for every algorithm", "anchors": ["src/reachgraph.rs", "src/algorithms/lineargraph.rs"]}
{"id": "C84", "title": "How strong and weak reachability relate", "statement": "Every vertex in sreach_set is in wreach_sets at no greater distance; for radius 1 both are the left neighbours; a smaller radius gives the restriction of the sets for a larger one; every weakly reachable vertex is reached through a strongly reachable one with the distances adding up; weak reachability composes with the triangle inequality.", "quantifier": "all well-formed linear graphs, vertices, radii, hash orders", "why_tests_cant": "relates outputs of different algorithms over all graphs and radii", "anchors": ["src/algorithms/lineargraph.rs:sreach_set", "src/algorithms/lineargraph.rs:wreach_sets"]}
{"id": "C85", "title": "Weak sizes and domset quality from strong sizes", "statement": "If sreach_sizes reports at most s for every vertex, wreach_sizes reports at most s + s^2 + ... + s^r, and domset returns at most (g+1)(g+1+4r^2) times the optimum for g that sum.", "quantifier": "all well-formed linear graphs, radii, targets, dominating sets, hash orders", "why_tests_cant": "needs the optimum and all graphs and radii", "anchors": ["src/algorithms/lineargraph.rs:sreach_sizes", "src/algorithms/lineargraph.rs:wreach_sizes", "src/algorithms/lineargraph.rs:domset_with_target"]}
{"id": "C86", "title": "From an edge list to a dominating set with a guarantee", "statement": "Reading an edge list, removing its loops, ordering the graph by degeneracy and calling domset with radius 1 always succeeds and returns a dominating set; if the graph is d-degenerate, the set has at most (b+1)(b+5) times the vertices of any dominating set, with b = d for d up to 129 and b = 127 + 2^(d-128) beyond.", "quantifier": "all texts whose lines are edges, all loopless graphs, all d, all dominating sets, all hash orders", "why_tests_cant": "needs the optimum and all graphs; the behaviour beyond 129 needs huge graphs", "anchors": ["src/io.rs", "src/editgraph.rs", "src/ordgraph.rs:by_degeneracy", "src/algorithms/lineargraph.rs:domset"]}
{"id": "C87", "title": "Graph algorithms do not depend on hash order", "statement": "For one graph held in two data structures or iterated in two hash orders, degeneracy returns the same bounds and the same core numbers, components the same sets, is_bipartite the same verdict, and neighbourhood, closed_neighbourhood, r_neighbourhood, subgraph, invert, merge, intersect, compare the same results; every history of updates and every bulk update of an EditGraph leads to the same state. Bounds and core numbers never drop when vertices or edges are added. Only the order returned by degeneracy may differ.", "quantifier": "all pairs of hash orders, all well-formed graphs (loopless for degeneracy), all vertex lists, all histories", "why_tests_cant": "hash order is randomised per process, and the bucket queue is exact only up to 129", "anchors": ["src/algorithms/graph.rs:degeneracy", "src/algorithms/graph.rs:components", "src/algorithms/graph.rs:is_bipartite", "src/graph.rs", "src/editgraph.rs", "src/operations.rs", "src/compare.rs"]}
{"id": "C88", "title": "domset returns a certified constant-factor result on sparse linear graphs", "statement": "If every vertex of a LinearGraph weakly 2r-reaches at most g vertices to its left and b = 2((g+1)(4r²+1)-1) is at most 129, then domset with a witness returns for any number of targets, uses at most b+1 colours, and one colour class of the witness has at least |D|(4r²+1)/((b+1)(4r²+1+g)) vertices, while no dominating set is smaller than that class.", "quantifier": "all LinearGraphs, radii and target lists meeting the condition, without a bound on the number of vertices or targets, all hash orders", "why_tests_cant": "the conflict graph is built from weakly reachable sets and coloured in a degeneracy order whose bucket queue is only exact up to 129; failure needs a dense core in a graph that no test builds", "anchors": ["src/algorithms/lineargraph.rs:domset_with_target", "src/algorithms/lineargraph.rs:domset", "src/ordgraph.rs:by_degeneracy"]}
{"id": "C89", "title": "What a write reports about the file it leaves", "statement": "On a device that may accept any part of each write or fail at any call: a text write that reports success has stored exactly the text, one that reports an error has stored a prefix of it, and it succeeds if the device never fails. The same is claimed of gzipped writes; there it is false: for every text there is a device on which write_gzipped reports success while the end of the stream is missing, so that reading the file back fails.", "quantifier": "all texts in any division into pieces, all buffer capacities, all behaviours of the device, all compressors and decoders that fit together", "why_tests_cant": "needs disks that fail or fill at chosen bytes, in particular when the encoder is dropped after the last flush", "anchors": ["src/io.rs:write_txt", "src/io.rs:write_gzipped", "src/io.rs:write_buf"]}
{"id": "C90", "title": "Results do not depend on vertex labels", "statement": "If a map f carries one graph onto another (injective on the vertices, preserving adjacency), then degeneracy returns the same bounds and core numbers, components the images of the components, is_bipartite the same verdict, and neighbourhoods, subgraphs, complement, union, intersection and comparison correspond; a renamed history of edits reports the same changes and gives the renamed graph. If f only embeds the first graph into the second, bounds and core numbers do not decrease and bipartiteness is inherited. For two linear graphs in corresponding orders, right_bfs, weak and strong reachability sets and sizes, count_max_cliques, colour_greedy and domset (without witness) return renamed results, and panic or diverge together.", "quantifier": "all renamings and embeddings, all pairs of well-formed graphs (loopless for degeneracy), all pairs of hash orders, all radii, targets and histories", "why_tests_cant": "the renamings of one graph alone are infinitely many, and labels decide hash order and tie-breaking", "anchors": ["src/algorithms/graph.rs", "src/graph.rs", "src/editgraph.rs", "src/operations.rs", "src/compare.rs", "src/algorithms/lineargraph.rs", "src/ordgraph.rs", "src/degengraph.rs"]}
{"id": "C91", "title": "Algebraic laws of the graph operations", "statement": "merge_graphs and intersect_graphs are commutative, associative and idempotent, absorb and distribute over each other, and invert exchanges them on a common vertex set. compare_subgraph is a partial order whose answer flips when the arguments are exchanged, with merge as least upper and intersect as greatest lower bound. Taking induced subgraphs composes, commutes with complement and with intersection. The closed neighbourhood is the disjoint union of the set and its open neighbourhood, r-neighbourhoods compose additively in the radius and r = 0, 1 give the set and the closed neighbourhood. normalize, remove_loops and remove_isolates are idempotent.", "quantifier": "all well-formed graphs, vertex lists, radii and reachable EditGraphs, all hash orders", "why_tests_cant": "an algebraic law ranges over all pairs or triples of graphs", "anchors": ["src/operations.rs", "src/compare.rs", "src/graph.rs", "src/editgraph.rs"]}
{"id": "C92", "title": "Algorithms on the generated graph families", "statement": "On the graphs returned by the generators the algorithms give the known answers: components counts 1 for paths, cycles, cliques, bicliques and grids and n for n isolated vertices or an n-edge matching; is_bipartite accepts paths, even cycles, cliques on at most two vertices, matchings, bicliques and grids and rejects odd cycles and larger cliques; degeneracy returns equal bounds 0 (independent), 1 (path with an edge, matching), 2 (cycle, grid), n-1 (clique, n at most 130) and min(s,t) (biclique, at most 129). Generators agree with each other: invert exchanges clique and independent and maps biclique to the disjoint union of two cliques, complete_kpartite generalises biclique and clique, a one-row or one-column grid is the path, closing a path gives the cycle, deleting the last vertex of a cycle gives the path.", "quantifier": "all sizes (within the u32 label range where the generator needs it), all hash orders", "why_tests_cant": "tests compute finitely many members of each family; the statements cover every size", "anchors": ["src/editgraph.rs:240-420", "src/algorithms/graph.rs", "src/operations.rs"]}
{"id": "C93", "title": "Algorithms on combined graphs", "statement": "The answers of the algorithms on a graph built by an operation follow from the answers on its parts. Disjoint union: components adds the counts, is_bipartite accepts iff both parts are accepted, and degeneracy is the maximum. Cartesian product: accepted by is_bipartite iff both factors are, connected if both factors are, and degeneracy is the sum. subdivide with k >= 1 inner vertices: accepted by is_bipartite iff k is odd or the graph was accepted, the number of components is unchanged, and degeneracy is min(2, degeneracy). Contracting vertices of one component keeps the partition into components, minus the contracted vertices. eg_grid(s,t) is the cartesian product of the paths on s and t vertices, renamed row by row.", "quantifier": "all reachable graphs (within the u32 label range), all k, all s and t, all hash orders", "why_tests_cant": "the statements relate runs of an algorithm on arbitrary pairs of graphs and on the combined graph; tests compare finitely many", "anchors": ["src/editgraph.rs", "src/operations.rs", "src/algorithms/graph.rs"]}
{"id": "C94", "title": "Undirected functions called on a digraph", "statement": "The functions written for every Graph can be called on an EditDigraph g. Every digraph has exactly one underlying undirected graph e. neighbourhood, closed_neighbourhood, r_neighbourhood, subgraph and components return the same value for g and e, and so do merge, disj_union and both products with digraph operands. is_bipartite never fails, separates the ends of every arc or returns an odd closed walk along arcs in either direction, and accepts g iff it accepts e. degeneracy of a loopless digraph counts arcs: the core number of v is the largest k such that v lies in a set whose members all have k arcs to or from the set (exact up to 129), and the result lies between the degeneracy of e and twice that. invert, intersect and compare_subgraph call adjacent, which looks at one direction only: their results on digraphs agree with those on e.", "quantifier": "all reachable digraphs and their underlying graphs, all vertex lists, all radii, all hash orders", "why_tests_cant": "the crate never calls these functions on digraphs in its tests; the statements compare two runs on arbitrary digraphs and for every iteration order", "anchors": ["src/editdigraph.rs", "src/graph.rs", "src/operations.rs", "src/compare.rs", "src/algorithms/graph.rs"]}
{"id": "C95", "title": "Structures built from a digraph", "statement": "For every EditDigraph g and its underlying undirected graph e, the structures that can be built from any Graph are, when built from g, those built from e. Graph::edges lists every arc once as an unordered pair and every loop twice. OrdGraph::with_ordering gives the same positions and left and right sets as for e, and counts arcs. DegenGraph::with_ordering keeps the order, has e's adjacency without loops, the right sets of e, and a left slice that is sorted by position and contains the other end of each arc from the left. OrdGraph::by_degeneracy, DTFGraph::orient and orient_deep never fail on loopless digraphs; orient directs e along the degeneracy order of g and orient_deep a subgraph of e acyclically. Writing g to a file and reading it back gives e without its isolated vertices. subdivide replaces every listed pair by a path of fresh vertices.", "quantifier": "all reachable digraphs, all orders covering the arcs, all subdivision counts within the u32 labels, all depths, all hash orders", "why_tests_cant": "no test builds these structures from a digraph; the statements compare the results on two unbounded graphs for every order and hash order", "anchors": ["src/editdigraph.rs", "src/ordgraph.rs", "src/degengraph.rs", "src/dtfgraph.rs", "src/io.rs", "src/operations.rs", "src/graph.rs"]}
{"id": "C96", "title": "DTFGraph and DTFLayer as Graph and Digraph", "statement": "The functions provided for every Graph and Digraph work on a DTFGraph as the digraph of its arcs of all weights, and on a DTFLayer as the digraph of its arcs of that weight. invert gives the complement. in_neighbourhood gives the tails, outside the set, of arcs into the set. in_degrees, out_degrees and degrees count the arcs at each vertex. Every function that enumerates neighbours or out-neighbours (edges, vertices_and_edges, neighbourhood, closed_neighbourhood, r_neighbourhood, subgraph, out_neighbourhood, arcs, components, degeneracy, is_bipartite, orient, writing to a file, merge, intersect, compare, the products, subdivide) panics on every DTFGraph and DTFLayer that has a vertex, because neighbours and out_neighbours are unimplemented.", "quantifier": "all DTFGraphs built by orient, augment and the other constructors, all layers, all vertex sets, all numbers of subdivisions, all hash orders", "why_tests_cant": "no test calls these functions on a DTFGraph; whether a call reaches the unimplemented method depends on the graph and the set", "anchors": ["src/dtfgraph.rs", "src/graph.rs", "src/algorithms/graph.rs", "src/operations.rs", "src/io.rs"]}
{"id": "C97", "title": "Iterators over neighbourhoods", "statement": "neighbourhoods() yields every vertex of the graph exactly once, each with exactly its neighbours without repetition; the lists together have twice the number of edges entries, less one per loop. in_neighbourhoods() and out_neighbourhoods() of an EditDigraph do the same for in- and out-neighbours, in the same vertex order, and each has as many entries as the digraph has arcs. left_neighbourhoods() of a linear graph yields the vertices in the order of the graph, each with the neighbours before it in that order, one entry per edge; on a ReachGraph it yields what it yields on the graph the ReachGraph was built from. in_neighbourhoods_iter() and in_neighbourhoods_iter_at(d) of a DTFGraph yield the tails of the arcs of all weights, or of weight d. Digraph::neighbours is the set of the in- and out-neighbours of a vertex. An iterator that has ended stays ended. DTFGraph, DTFLayer and ReachGraph have no neighbours, so neighbourhoods() and out_neighbourhoods() panic on them at the first step.", "quantifier": "all graphs, digraphs, linear graphs, ReachGraphs and DTFGraphs that the library can build, all hash orders", "why_tests_cant": "the tests use these iterators only through edges() and arcs() on a few fixed graphs", "anchors": ["src/iterators.rs", "src/dtfgraph.rs", "src/graph.rs"]}
{"id": "C98", "title": "VertexColouring as a map", "statement": "After any sequence of from_iter and insert calls, get(v) is the colour v was given last since the last from_iter, contains(v) holds exactly for the vertices that were given one, indexing panics on the others, and len() is the number of distinct coloured vertices. insert returns the colour it replaces, changes no other vertex, and adds one to len() only for a new vertex. iter() and vertices() list every coloured vertex exactly once, iter() with its current colour, and from_iter(iter()) gives the colouring back.", "quantifier": "all sequences of calls, all colours, all vertices, all hash orders", "why_tests_cant": "no test of the repository exercises VertexColouring directly", "anchors": ["src/graph.rs"]}
{"id": "C99", "title": "Digraph functions depend neither on labels nor on hash order", "statement": "Let f rename the vertices of an EditDigraph injectively, and let the renamed digraph live under any other hash order. The same edit calls with renamed arguments give the renamed digraph and the same answers. Vertex and arc counts, all degrees, the degree maps, arcs(), in- and out-neighbourhoods, remove_loops, remove_isolates, the connected components, the bipartiteness verdict, neighbourhoods, r-neighbourhoods and induced subgraphs all carry over along f. normalize gives the same digraph whenever f keeps the order of the labels; for other renamings it may give a digraph that is not isomorphic.", "quantifier": "all histories of calls, all reachable digraphs, all injective renamings, all pairs of hash orders", "why_tests_cant": "tests fix the labels and run under one hash order at a time", "anchors": ["src/editdigraph.rs", "src/graph.rs", "src/algorithms/graph.rs"]}
{"id": "C100", "title": "Approximation guarantee of DTFGraph::domset", "statement": "Let g' be the augmented graph left by domset(r) and w a bound on the number of in-neighbours of weight at most r of a vertex of g'. The returned set has at most |X|*(w+1)*(w+1+4r^2) vertices for every set X that r-dominates the graph according to small_distance on g'; so for every r-dominating set of the graph whenever small_distance is exact on g'. For r = 1 no exactness is needed: on a k-degenerate graph (k <= 129) the factor is (k+1)*(k+5). On forests the factor is (r+1)*(r+1+4r^2) for every radius r.", "quantifier": "all loopless graphs, all states reachable from orient by augment, domset and layer, all radii whose cutoff fits in u32, all dominating sets X, all hash orders", "why_tests_cant": "the claim compares the result with every dominating set of the graph, the minimum one included, which tests cannot compute", "anchors": ["src/dtfgraph.rs:559-623", "src/dtfgraph.rs:446-481"]}
{"id": "C101", "title": "Why an augmentation has its arcs", "statement": "Every arc of weight 1 of an augmentation is an edge of the graph. Every arc of weight w > 1 follows from two arcs whose weights add up to w: either it closes a directed walk of length two, or it joins two in-neighbours of one vertex that no arc of smaller weight joins in either direction. Conversely every directed walk of length two whose weight is within the depth is closed by an arc of at most that weight, and at most one arc leads from one vertex to another. On a forest every vertex has at most one in-neighbour of weight 1 and the arcs of weight w lead exactly from the w-th ancestors.", "quantifier": "all loopless graphs, all states reachable from orient by augment and domset with any depths and fraternal depths, all hash orders", "why_tests_cant": "tests compare small distances on a few graphs; spurious or missing arcs elsewhere go unseen", "anchors": ["src/dtfgraph.rs:446-481", "src/dtfgraph.rs:483-539"]}
{"id": "C102", "title": "The answers of the trace oracle fit together", "statement": "The counters returned by compute_traces(X) add up to the number of vertices outside X, and compute_neighbour_count(X) is that number minus the counter of the empty trace. If is_shattered(X,k) accepts, it accepts every subset of X with k and every smaller exponent, the graph has at least 2^k + |X| vertices, every member of X has degree at least 2^(k-1), and |X| is at most one more than the largest left degree of the DegenGraph and at most one more than the degeneracy. The counters and the answer depend neither on the order the DegenGraph was built in nor on hash order.", "quantifier": "all loopless graphs, all orders of the vertices, all sets X and exponents k for which is_shattered returns, all hash orders", "why_tests_cant": "tests compare traces on three graphs in the degeneracy order; relations between calls for all sets, exponents and orders are not tested", "anchors": ["src/datastructures/sreach_trace_oracle.rs:108-133", "src/datastructures/sreach_trace_oracle.rs:135-221", "src/datastructures/sreach_trace_oracle.rs:223-268", "src/datastructures/sreach_trace_oracle.rs:270-291"]}
{"id": "C103", "title": "Linear-graph algorithms on the generated graph families", "statement": "On every linear graph showing a generated graph, in whatever order and data structure, count_max_cliques returns n-1 for the path, n for the cycle (1 if n = 3), n for the matching, s(t-1)+(s-1)t for the grid, 1 for the clique, n for n isolated vertices, s*t for the biclique and the product of the part sizes for complete_kpartite. In general it returns the number of edges plus isolated vertices on triangle-free graphs and the product of the part sizes on complete multipartite graphs. On the path ordered from left to right the weakly r-reachable vertices of u are the r vertices to its left at their distances, and u-1 alone is strongly reachable; on a clique in any order both are all vertices to the left, at distance 1. The sizes match: in 0,1,... order vertex u of a path weakly r-reaches min(r,u) and strongly reaches min(1,u) vertices; in a clique, in any order, the vertex at position i reaches exactly i.", "quantifier": "all sizes of the generated families for which the generators are right (C15), all orders of the vertices, all linear data structures, all radii below 2^32-1, all hash orders", "why_tests_cant": "tests count cliques of K5, K555 and five isolated vertices in one order each", "anchors": ["src/algorithms/lineargraph.rs:158-262", "src/editgraph.rs:267-420"]}
{"id": "C104", "title": "How one edit changes the answers of the algorithms", "statement": "Adding a new vertex to an EditGraph adds one component consisting of it, keeps is_bipartite's verdict, keeps both degeneracy bounds and every core number and gives the new vertex core number 0. Adding an edge between existing vertices joins the components of its ends and changes no other; a bipartite graph stays bipartite unless both ends were in one component and on one side of the returned bipartition. Removing an edge splits at most its own component, into the parts of its two ends. Removing a vertex keeps all other components, splits its own into parts each containing a neighbour, and hence increases the number of components by less than its degree. Adding or removing an edge, or removing a vertex, of a loopless graph changes the upper degeneracy bound and every core number by at most one, and never against the direction of the edit. If one linear graph is a subgraph of another in the same order, every strongly or weakly reachable vertex of the first is reachable in the second at no greater distance, so all the sizes are at most those of the second.", "quantifier": "all EditGraphs reachable by edits, all vertices and edges, all degeneracies (also those above 129 where the bounds are only approximate), all linear graphs and radii, all hash orders", "why_tests_cant": "the effect of an edit relates two runs of an algorithm on two graphs; the test suite runs the algorithms on single graphs only", "anchors": ["src/editgraph.rs:207-262", "src/algorithms/graph.rs:41-223", "src/algorithms/lineargraph.rs:110-206"]}
{"id": "C105", "title": "Degrees and sizes add up", "statement": "In every graph the degrees of the vertices add up to twice num_edges (a loop counting twice); in a linear graph the left degrees and the right degrees each add up to num_edges, so num_edges is at most num_vertices times max_left_degree; in an EditDigraph the in-degrees and the out-degrees each add up to the number of arcs. For a loopless graph with upper degeneracy bound d (at most 129), d(d+1)/2 <= num_edges <= d*num_vertices. In the complement of a loopless graph the degrees are n-1 minus the old ones and the edges of both add up to n(n-1)/2; merge_graphs and intersect_graphs obey inclusion-exclusion for vertices and edges; the degree of a pair is the sum of the degrees in the cartesian product and d_G(u)+n_G*d_H(v) in the lexicographic product, the edge counts are n_G*m_H+m_G*n_H and n_G*n_G*m_H+m_G*n_H, and exactly the pairs of isolated vertices are missing from both products.", "quantifier": "all well-formed graphs, linear graphs and reachable EditDigraphs of any size, all hash orders", "why_tests_cant": "the counters are maintained incrementally by different code paths; the identities quantify over all graphs and relate the counters of several graphs to each other, while tests compare single numbers on fixed graphs", "anchors": ["src/graph.rs:281-300", "src/editgraph.rs:142-163", "src/editdigraph.rs", "src/operations.rs"]}
{"id": "C106", "title": "Algorithms on complements, unions, intersections and lexicographic products", "statement": "If components(G) has at least two members, components of G.invert() has exactly one, holding all vertices. The components of merge(G,H) are the finest partition coarser than the components of G and of H; if merge is bipartite so are G and H; its upper degeneracy bound and core numbers are at least those of G and of H, and (for bounds up to 129) at most twice the sum of the two bounds. Every component of intersect(G,H) lies in a component of G and in one of H; it is bipartite if G or H is; its degeneracy bound and core numbers are at most those of G, and do not depend on the order of the arguments. The lexicographic product of nonempty graphs is bipartite exactly if both factors are and one of them has no edges; if the second factor is connected with at least two vertices, the product has one component containing all pairs.", "quantifier": "all well-formed graphs (loopless where degeneracy is concerned) of any size whose product fits in u32, all hash orders", "why_tests_cant": "the claims relate runs of an algorithm on two or three graphs of arbitrary size; the tests of operations.rs only check sizes of a few fixed results", "anchors": ["src/operations.rs:20-111", "src/algorithms/graph.rs:41-223"]}
{"id": "C107", "title": "Relations between the answers of different algorithms on one graph", "statement": "For a loopless graph with n vertices, m edges, c components and upper degeneracy bound up: n <= m + c, with equality exactly if up <= 1 (the graph is a forest), and then is_bipartite returns a bipartition. If is_bipartite returns an odd cycle then up >= 2 and n < m + c; if it returns a bipartition (L,R) then |L|+|R| = n, m <= |L||R| and 4m <= n^2. A clique with at most 130 vertices has at most up+1 vertices; in a linear graph a clique of any size has at most max_left_degree+1 and at most max_right_degree+1 vertices, and at most k vertices if colour_greedy colours all of them with colours below k.", "quantifier": "all well-formed graphs (loopless where degeneracy is concerned) and linear graphs of any size, all vertex sets, all hash orders", "why_tests_cant": "the claims relate several algorithms on every graph; the tests check each algorithm alone on fixed graphs", "anchors": ["src/algorithms/graph.rs:41-223", "src/algorithms/lineargraph.rs:221-242", "src/graph.rs:661-700"]}
{"id": "C108", "title": "The ways of measuring distance agree", "statement": "r_neighbours(u, r) equals the component of u as soon as r >= n-1. small_distance on the weakly reachable sets of a linear graph answers Some(k) exactly if the vertex lies in the ball of the given radius, and then k is the smallest radius whose ball contains it. The r-ball around the result of domset_with_target contains all targets; the r-ball around the result of LinearGraph::domset or DTFGraph::domset is the whole vertex set, and the result has at least as many vertices as the graph has components. If DTFGraph::small_distance answers d, the vertex lies in the d-ball, and small_distance on any linear graph showing the same graph answers some k <= d, with k = d if d <= 2. If is_bipartite returns (A,B), two vertices lie on the same side exactly if their small_distance is even.", "quantifier": "all well-formed graphs, linear graphs and DTF states reached by orient, augment, domset and layer, all vertices, radii and depths below the u32 bounds, all hash orders", "why_tests_cant": "the claims relate five algorithms on every graph and radius; the tests compare at most two of them on fixed graphs", "anchors": ["src/graph.rs:319-380", "src/algorithms/graph.rs:41-64", "src/algorithms/lineargraph.rs:247-330", "src/algorithms/lineargraph.rs:573-600", "src/dtfgraph.rs:415-440", "src/dtfgraph.rs:559-610"]}
{"id": "C109", "title": "Only isolated vertices are lost when a graph is saved and loaded, or remove_isolates is called", "statement": "Let h be the graph loaded from the text written for G, or the result of remove_isolates on G. Then h has as many edges as G, and as many vertices less as G has isolated vertices (which is the number remove_isolates returns); the components of G are those of h and one singleton per isolated vertex; h is bipartite exactly if G is; if G is loopless, degeneracy returns the same bounds for both and the same core number for every vertex of h, and the isolated vertices of G have core number 0.", "quantifier": "all well-formed graphs with labels that fit u32, all EditGraphs reachable by edits, all hash orders", "why_tests_cant": "the tests save and load a few fixed graphs and compare counts; the claim is about every graph and every answer", "anchors": ["src/io.rs:99-155", "src/graph.rs:455-475", "src/algorithms/graph.rs:41-223"]}
{"id": "C110", "title": "Contraction never lengthens distances and keeps the components", "statement": "Let h be G with the vertices X contracted into c (contract_into). If v is within distance r of u in G, then the vertex v goes to (c if v is in X, v otherwise) is within distance r of the vertex u goes to in h. If c and X lie in one component of G, the components of h are those of G without the removed vertices, and there are as many. contract_pair u v gives the same graph as contract_into u [v] for u different from v; contracting an edge removes exactly one vertex and keeps the number of components.", "quantifier": "all EditGraphs reachable by edits, all centres and lists of vertices of the graph, all radii, all hash orders", "why_tests_cant": "the tests contract one or two fixed graphs and look at a few adjacencies; the claim is about paths of every length in every graph", "anchors": ["src/editgraph.rs:483-530", "src/algorithms/graph.rs:41-64", "src/graph.rs:319-380"]}
