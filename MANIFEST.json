{
 "claims": [
  {
   "property": "C01",
   "status": "proved",
   "theorems": [
    "C01_editgraph_refines",
    "C01_return_value_is_change"
   ],
   "note": ""
  },
  {
   "property": "C02",
   "status": "proved",
   "theorems": [
    "C02_counters"
   ],
   "note": ""
  },
  {
   "property": "C03",
   "status": "proved",
   "theorems": [
    "C03_enumeration"
   ],
   "note": ""
  },
  {
   "property": "C04",
   "status": "proved",
   "theorems": [
    "C04_eq_is_graph_equality"
   ],
   "note": ""
  },
  {
   "property": "C05",
   "status": "proved",
   "theorems": [
    "C05_clone_equal"
   ],
   "note": ""
  },
  {
   "property": "C06",
   "status": "proved",
   "theorems": [
    "C06_edges_exactly_once"
   ],
   "note": ""
  },
  {
   "property": "C07",
   "status": "partial",
   "theorems": [
    "C07_vertices_and_edges_loopless_partial",
    "C07_vertices_and_edges_no_loops_reported_partial",
    "C07_vertices_and_edges_refuted"
   ],
   "note": "True for loopless graphs and, in general, for all non-loop edges; the full statement is refuted: MixedIterator never reports loops."
  },
  {
   "property": "C08",
   "status": "proved",
   "theorems": [
    "C08_add_vertices",
    "C08_add_edges",
    "C08_from_iter",
    "C08_remove_loops",
    "C08_remove_isolates"
   ],
   "note": ""
  },
  {
   "property": "C09",
   "status": "partial",
   "theorems": [
    "C09_contract_into",
    "C09_contract",
    "C09_contract_pair_partial",
    "C09_contract_pair_refuted",
    "C09_panics"
   ],
   "note": "contract and contract_into proved in full; contract_pair proved for distinct vertices; contract_pair(u,u) is refuted (it deletes u)."
  },
  {
   "property": "C10",
   "status": "proved",
   "theorems": [
    "C10_subgraph",
    "C10_reachable_wf"
   ],
   "note": ""
  },
  {
   "property": "C11",
   "status": "proved",
   "theorems": [
    "C11_neighbourhood",
    "C11_closed_neighbourhood"
   ],
   "note": ""
  },
  {
   "property": "C12",
   "status": "proved",
   "theorems": [
    "C12_r_neighbourhood",
    "C12_r_neighbours"
   ],
   "note": ""
  },
  {
   "property": "C13",
   "status": "proved",
   "theorems": [
    "C13_disj_union_offset",
    "C13_disj_union",
    "C13_disj_unions",
    "C13_disj_union_overflow_refuted"
   ],
   "note": "Proved whenever shifted labels fit in u32; the wrap-around case is refuted as a side remark."
  },
  {
   "property": "C14",
   "status": "proved",
   "theorems": [
    "C14_normalize"
   ],
   "note": ""
  },
  {
   "property": "C15",
   "status": "partial",
   "theorems": [
    "C15_path",
    "C15_cycle",
    "C15_matching",
    "C15_clique",
    "C15_independent",
    "C15_biclique_partial",
    "C15_biclique_refuted",
    "C15_star_partial",
    "C15_star_refuted",
    "C15_complete_kpartite_partial",
    "C15_complete_kpartite_refuted",
    "C15_grid_partial",
    "C15_grid_refuted"
   ],
   "note": "path, cycle, matching, clique, independent proved for all parameters; biclique/star/complete_kpartite/grid proved except degenerate parameters, where the documented result is refuted."
  },
  {
   "property": "C16",
   "status": "proved",
   "theorems": [
    "C16_run_total",
    "C16_queries",
    "C16_absent_panics"
   ],
   "note": ""
  },
  {
   "property": "C17",
   "status": "partial",
   "theorems": [
    "C17_adjacent_exact",
    "C17_neighbours_both_directions",
    "C17_adjacent_undirected_partial",
    "C17_adjacent_undirected_refuted"
   ],
   "note": "Refuted: adjacent(u,v) tests the arc uv twice and never vu. Exact behaviour proved; the claim holds for digraphs closed under reversal."
  },
  {
   "property": "C18",
   "status": "proved",
   "theorems": [
    "C18_arcs_drain"
   ],
   "note": ""
  },
  {
   "property": "C19",
   "status": "partial",
   "theorems": [
    "C19_disj_union_exact",
    "C19_disj_union_partial",
    "C19_disj_union_refuted",
    "C19_normalize_exact",
    "C19_normalize_partial",
    "C19_normalize_refuted"
   ],
   "note": "Refuted: disj_union and normalize iterate the undirected edges() and so orient every arc from the smaller to the larger label. The exact result is proved, and the claim holds if all arcs already point to larger labels."
  },
  {
   "property": "C20",
   "status": "proved",
   "theorems": [
    "C20_eq",
    "C20_clone"
   ],
   "note": ""
  },
  {
   "property": "C21",
   "status": "proved",
   "theorems": [
    "C21_out_neighbourhood",
    "C21_in_neighbourhood",
    "C21_out_degrees",
    "C21_in_degrees"
   ],
   "note": ""
  },
  {
   "property": "C22",
   "status": "proved",
   "theorems": [
    "C22_components"
   ],
   "note": ""
  },
  {
   "property": "C23",
   "status": "proved",
   "theorems": [
    "C23_degeneracy_order"
   ],
   "note": ""
  },
  {
   "property": "C24",
   "status": "partial",
   "theorems": [
    "C24_core_attained",
    "C24_lower_bound",
    "C24_core_maximal",
    "C24_core_monotone",
    "C24_left_degree_partial",
    "C24_exact_small",
    "C24_upper_bound_refuted"
   ],
   "note": "Lower bound, attained and maximal core numbers, and monotonicity are proved; the upper bound holds for core numbers up to 129 (then the result is the exact degeneracy) and is refuted above: on the clique with 132 vertices the returned upper bound is at most 130 although some vertex has 131 left neighbours. The exponential bound that does hold is proved."
  },
  {
   "property": "C25",
   "status": "proved",
   "theorems": [
    "C25_is_bipartite_total",
    "C25_bipartition",
    "C25_iff_two_colourable"
   ],
   "note": ""
  },
  {
   "property": "C26",
   "status": "partial",
   "theorems": [
    "C26_odd_closed_walk_partial",
    "C26_no_repetition_refuted"
   ],
   "note": "The returned sequence is always an odd closed walk; that it is a cycle without repeated vertices is refuted on K4."
  },
  {
   "property": "C27",
   "status": "proved",
   "theorems": [
    "C27_invert",
    "C27_invert_twice"
   ],
   "note": ""
  },
  {
   "property": "C28",
   "status": "proved",
   "theorems": [
    "C28_merge"
   ],
   "note": ""
  },
  {
   "property": "C29",
   "status": "proved",
   "theorems": [
    "C29_intersect"
   ],
   "note": ""
  },
  {
   "property": "C30",
   "status": "proved",
   "theorems": [
    "C30_subdivide",
    "C30_subdivide_0"
   ],
   "note": ""
  },
  {
   "property": "C31",
   "status": "partial",
   "theorems": [
    "C31_cartesian_partial",
    "C31_cartesian_no_isolates",
    "C31_vertex_set_refuted"
   ],
   "note": "Adjacency and the bijection are proved in full; the vertex-set part is refuted (isolated product vertices are missing from the graph although the map lists them), the exact vertex set is proved, and the full claim is proved when one factor has no isolated vertices."
  },
  {
   "property": "C32",
   "status": "partial",
   "theorems": [
    "C32_lexicographic_partial",
    "C32_lexicographic_no_isolates",
    "C32_vertex_set_refuted"
   ],
   "note": "Adjacency and the bijection are proved in full; the vertex-set part is refuted (isolated product vertices are missing from the graph although the map lists them), the exact vertex set is proved, and the full claim is proved when one factor has no isolated vertices."
  },
  {
   "property": "C33",
   "status": "proved",
   "theorems": [
    "C33_compare"
   ],
   "note": ""
  },
  {
   "property": "C34",
   "status": "proved",
   "theorems": [
    "C34_with_ordering",
    "C34_bad_order_panics",
    "C34_by_degeneracy",
    "C34_degree_maps"
   ],
   "note": ""
  },
  {
   "property": "C35",
   "status": "partial",
   "theorems": [
    "C35_swap_nonadjacent_partial",
    "C35_swap_exact",
    "C35_swap_adjacent_refuted"
   ],
   "note": "Proved exact for any sequence of swaps of non-adjacent (or absent, or equal) pairs. Missing: adjacent pairs, where the claim is false of the code (C35_swap_adjacent_refuted); C35_swap_exact states exactly what the swap does there."
  },
  {
   "property": "C36",
   "status": "proved",
   "theorems": [
    "C36_leftmost",
    "C36_rightmost"
   ],
   "note": ""
  },
  {
   "property": "C37",
   "status": "proved",
   "theorems": [
    "C37_with_ordering",
    "C37_from_graph"
   ],
   "note": "Under the hypothesis that the packed array fits u32 offsets (3n+m <= 2^32)."
  },
  {
   "property": "C38",
   "status": "partial",
   "theorems": [
    "C38_normalize_partial",
    "C38_normalize_empty_refuted"
   ],
   "note": "Proved for every non-empty graph (packed array within u32 offsets). Missing: the empty graph, where normalize reads out of bounds without a check (C38_normalize_empty_refuted)."
  },
  {
   "property": "C39",
   "status": "proved",
   "theorems": [
    "C39_to_degeneracy_graph"
   ],
   "note": "Under the hypothesis that the packed array fits u32 offsets (3n+m <= 2^32)."
  },
  {
   "property": "C40",
   "status": "proved",
   "theorems": [
    "C40_right_bfs",
    "C40_not_a_vertex_panics"
   ],
   "note": "Radii with dist+1 < 2^32 (the code computes dist+1 in u32 and panics otherwise, as does the model)."
  },
  {
   "property": "C41",
   "status": "proved",
   "theorems": [
    "C41_sreach_set",
    "C41_sreach_sets_sizes",
    "C41_radius_zero_panics"
   ],
   "note": "r >= 1 as stated; r = 0 underflows (C41_radius_zero_panics)."
  },
  {
   "property": "C42",
   "status": "proved",
   "theorems": [
    "C42_wreach_sets",
    "C42_wreach_sizes"
   ],
   "note": "Radii with r+1 < 2^32."
  },
  {
   "property": "C43",
   "status": "partial",
   "theorems": [
    "C43_appends",
    "C43_to_wreach_graph",
    "C43_to_sreach_graph",
    "C43_depth_zero_refuted"
   ],
   "note": "Proved for every DEPTH >= 1 and every append sequence whose packed array fits u32 offsets; for to_wreach_graph and to_sreach_graph the stored sets are characterised by walks and all graph queries agree with the OrdGraph. DEPTH = 0 compiles but left_neighbours and reachables_all panic (C43_depth_zero_refuted)."
  },
  {
   "property": "C44",
   "status": "partial",
   "theorems": [
    "C44_multipartite",
    "C44_undercount_refuted",
    "C44_count_partial",
    "C44_triangle_free",
    "C44_total",
    "C44_count_refuted"
   ],
   "note": "The full claim is false (C44_count_refuted: 4 instead of 2, C44_undercount_refuted: 7 instead of 8; the recursion restricts the candidates to the neighbourhood of the pivot instead of the chosen vertex). Proved: the call always returns, and the count is right if every left neighbourhood is complete multipartite (C44_multipartite), in particular if each is a clique or independent, for triangle-free graphs and for perfect elimination orders."
  },
  {
   "property": "C45",
   "status": "partial",
   "theorems": [
    "C45_slow_orders",
    "C45_by_degeneracy",
    "C45_by_degeneracy_refuted",
    "C45_colour_greedy_partial",
    "C45_perfect_elimination",
    "C45_uncoloured_refuted",
    "C45_panic_refuted"
   ],
   "note": "The full claim is false: a vertex can stay uncoloured (C45_uncoloured_refuted), a later neighbour then panics (C45_panic_refuted), even for a degeneracy ordering (C45_by_degeneracy_refuted). Proved: whatever is returned is a proper colouring of the coloured vertices with colours below max_left_degree+1; the full claim for perfect elimination orders, for orders whose left degrees rise slowly, and for degeneracy orderings of graphs of degeneracy at most 129."
  },
  {
   "property": "C46",
   "status": "partial",
   "theorems": [
    "C46_domset_with_target",
    "C46_domset",
    "C46_with_witness_partial",
    "C46_uncrowded",
    "C46_large_radius_refuted",
    "C46_witness_refuted"
   ],
   "note": "Proved in full without a witness for every radius whose doubled square fits a u32 (r < 32768; larger radii always panic: C46_large_radius_refuted). With witness=true the returned set dominates and the call succeeds for at most 130 different targets; beyond that colouring the conflict graph can panic (C46_witness_refuted: 136 targets in a subdivided tree). C46_uncrowded: it succeeds for any number of targets if every set of targets has a member with at most 129 others within distance 2r; C88 gives another sufficient condition."
  },
  {
   "property": "C47",
   "status": "partial",
   "theorems": [
    "C47_upper_bounds_partial",
    "C47_small_values",
    "C47_refuted",
    "C47_non_target_refuted"
   ],
   "note": "The documented claim is false: C47_refuted (recorded distance 2, real distance 1) and C47_non_target_refuted. Proved: the recorded distance is at most r, an upper bound, and 0 exactly on the dominating set; recorded distances 0 and 1 are exact, so the claim holds for radius 1 (C47_small_values)."
  },
  {
   "property": "C48",
   "status": "proved",
   "theorems": [
    "C48_witness",
    "C48_witness_not_empty"
   ],
   "note": "For every returned value, without a bound on the radius. C48_witness_not_empty rules out that the colouring is trivially empty."
  },
  {
   "property": "C49",
   "status": "partial",
   "theorems": [
    "C49_scattered_colouring_partial",
    "C49_uncrowded",
    "C49_even_distance",
    "C49_large_distance_refuted",
    "C49_panic_refuted",
    "C49_odd_distance_refuted",
    "C49_non_vertex_refuted"
   ],
   "note": "The full claim is false: odd distances (C49_odd_distance_refuted), non-vertex targets loop forever (C49_non_vertex_refuted), more than 130 targets can panic (C49_panic_refuted), distances >= 65536 panic (C49_large_distance_refuted). Proved: full claim for even distances below 65536 and at most 130 vertex targets; for odd distances with d-1; panics only with more than 130 targets. C49_uncrowded removes the limit of 130 targets if every set of targets has a member with at most 129 others within the distance."
  },
  {
   "property": "C50",
   "status": "proved",
   "theorems": [
    "C50_small_distance",
    "C50_small_distance_sets"
   ],
   "note": "Also for small_distance_sets."
  },
  {
   "property": "C51",
   "status": "proved",
   "theorems": [
    "C51_orient"
   ],
   "note": ""
  },
  {
   "property": "C52",
   "status": "partial",
   "theorems": [
    "C52_arcs_at_partial",
    "C52_arcs_partial",
    "C52_refuted"
   ],
   "note": "The claim is false: the tie-break of DTFArcIterator drops every arc whose head has a larger label than its tail, and the items are (head, tail) (C52_refuted). Proved: the iterators yield exactly the arcs with head <= tail, each once."
  },
  {
   "property": "C53",
   "status": "proved",
   "theorems": [
    "C53_augment_total",
    "C53_weights",
    "C53_small_distance"
   ],
   "note": ""
  },
  {
   "property": "C54",
   "status": "partial",
   "theorems": [
    "C54_small_distance_partial",
    "C54_small_values_partial",
    "C54_self",
    "C54_refuted",
    "C54_closed_partial",
    "C54_cliques_partial",
    "C54_forest",
    "C54_path"
   ],
   "note": "The full claim is false: small_distance returns None (after augment(2,_)) or 3 (after augment(3,_)) for a pair at distance 2 (C54_refuted), a consequence of C52; the self-distance is never 0 (C54_self). Proved: pairs joined by descending weight-1 paths from a common ancestor are within the claimed bound; Some(1) exactly for edges; the values 1 and 2 are exact; answers are always upper bounds (C53). The full claim is proved for every forest (C54_forest, C54_path), whenever the in-neighbourhoods of the orientation are cliques (C54_cliques_partial), and for every augmentation that lost no fraternal pair (C54_closed_partial)."
  },
  {
   "property": "C55",
   "status": "partial",
   "theorems": [
    "C55_domset_partial",
    "C55_domset_overflow",
    "C55_large_radius_refuted"
   ],
   "note": "Proved for all radii with (2r)^2 < 2^32, also after layer calls; larger radii always panic (C55_domset_overflow, C55_large_radius_refuted)."
  },
  {
   "property": "C56",
   "status": "partial",
   "theorems": [
    "C56_counters",
    "C56_counters_reach",
    "C56_counters_all",
    "C56_depth_partial",
    "C56_depth_refuted",
    "C56_jump_refuted"
   ],
   "note": "False in general: layer and add_arc lower the depth (C56_depth_refuted), and raising the depth by two or more leaves counters missing (C56_jump_refuted). Proved: the counters are exact wherever they exist, in every reachable state; augment, domset, add_vertex never lower the depth."
  },
  {
   "property": "C57",
   "status": "proved",
   "theorems": [
    "C57_traces"
   ],
   "note": ""
  },
  {
   "property": "C58",
   "status": "proved",
   "theorems": [
    "C58_neighbour_count"
   ],
   "note": ""
  },
  {
   "property": "C59",
   "status": "partial",
   "theorems": [
    "C59_shattered_partial",
    "C59_shattered_refuted"
   ],
   "note": "2usize.pow overflows (panics in debug builds) once |X| >= 64 or k-|X| >= 64, although the answer is defined (C59_shattered_refuted). Proved exactly for exponents below 64."
  },
  {
   "property": "C60",
   "status": "proved",
   "theorems": [
    "C60_vec_roundtrip",
    "C60_set_roundtrip"
   ],
   "note": "Stated on texts (character lists); C75 and C76 carry it to bytes and files."
  },
  {
   "property": "C61",
   "status": "partial",
   "theorems": [
    "C61_roundtrip_partial",
    "C61_equal_iff_partial",
    "C61_roundtrip_refuted"
   ],
   "note": "Isolated vertices are not written, so they are lost (C61_roundtrip_refuted). Proved: all edges and the vertices on edges survive, and the graph read back is equal exactly if there are no isolated vertices."
  },
  {
   "property": "C62",
   "status": "proved",
   "theorems": [
    "C62_lines_unique",
    "C62_accepts",
    "C62_rejects",
    "C62_accepts_iff"
   ],
   "note": "Stated on texts (character lists); C75 and C76 carry it to bytes and files."
  },
  {
   "property": "C63",
   "status": "proved",
   "theorems": [
    "C63_invert",
    "C63_majority_set"
   ],
   "note": "invert and majority_set, for any value type and any hash order."
  },
  {
   "property": "C64",
   "status": "partial",
   "theorems": [
    "C64_disjoint_extend",
    "C64_disjoint_extend_total",
    "C64_signed",
    "C64_negative_refuted"
   ],
   "note": "Full statement for u32 colours (C64_disjoint_extend) together with a no-panic theorem when no sum overflows. For signed colours everything but the last clause holds, the last one only if the colours of `other` are non-negative; C64_negative_refuted is the counterexample."
  },
  {
   "property": "C65",
   "status": "proved",
   "theorems": [
    "C65_intersects",
    "C65_intersection",
    "C65_accessors"
   ],
   "note": "All pairs of vertices and edges, including loops."
  },
  {
   "property": "C66",
   "status": "partial",
   "theorems": [
    "C66_degenerate_refuted",
    "C66_path_partial",
    "C66_cycle",
    "C66_matching",
    "C66_clique_partial",
    "C66_independent",
    "C66_biclique_partial",
    "C66_star_partial",
    "C66_grid_partial"
   ],
   "note": "Exact result for every parameter; the claim itself fails for degenerate sizes (path(0) panics; path(1), clique(1), grid(1,1), star(0) have no vertices)."
  },
  {
   "property": "C67",
   "status": "proved",
   "theorems": [
    "C67_from_iter",
    "C67_add_vertices",
    "C67_add_arcs",
    "C67_remove_loops",
    "C67_remove_isolates"
   ],
   "note": ""
  },
  {
   "property": "C68",
   "status": "partial",
   "theorems": [
    "C68_boundaries_shifted",
    "C68_boundaries_refuted"
   ],
   "note": "False of the code: boundaries[depth] is indexed without the -1 (C68_boundaries_refuted). Proved: what it returns instead (the segment of depth d+1, and a panic at d = DEPTH). The function is private and has no callers."
  },
  {
   "property": "C69",
   "status": "proved",
   "theorems": [
    "C69_subset",
    "C69_from_sets",
    "C69_from_disjoint_sets",
    "C69_colours"
   ],
   "note": "subset, from_sets and colours."
  },
  {
   "property": "C70",
   "status": "partial",
   "theorems": [
    "C70_layer_partial",
    "C70_refuted",
    "C70_view_partial"
   ],
   "note": "adjacent, degree, in_degree, out_degree of a layer ignore its depth (C70_refuted). has_arc, in_neighbours and num_edges are proved exact."
  },
  {
   "property": "C71",
   "status": "proved",
   "theorems": [
    "C71_weights_agree"
   ],
   "note": ""
  },
  {
   "property": "C72",
   "status": "partial",
   "theorems": [
    "C72_orient_deep_partial",
    "C72_refuted"
   ],
   "note": "False for d >= 2: edges are lost (C72_refuted). Proved: acyclic, arcs are edges, vertices kept, no loss for d <= 1, and the exact condition under which an edge survives for d >= 2."
  },
  {
   "property": "C73",
   "status": "partial",
   "theorems": [
    "C73_to_undirected_partial",
    "C73_edge_subgraph",
    "C73_refuted"
   ],
   "note": "to_undirected loses arcs with tail < head (C73_refuted); its exact result is proved (C73_to_undirected_partial). edge_subgraph is proved in full."
  },
  {
   "property": "C74",
   "status": "proved",
   "theorems": [
    "C74_vec_accepts",
    "C74_vec_rejects"
   ],
   "note": ""
  },
  {
   "property": "C75",
   "status": "partial",
   "theorems": [
    "C75_dispatch",
    "C75_vec_file",
    "C75_set_file",
    "C75_graph_file_partial",
    "C75_other_files",
    "C75_bad_graph_file",
    "C75_bad_vertex_file"
   ],
   "note": "from_file proved exact for every name; vertex lists and sets round-trip in full (for any codec with gunzip(gzip b) = b); graphs up to isolated vertices, which are never written (C61_roundtrip_refuted)."
  },
  {
   "property": "C76",
   "status": "partial",
   "theorems": [
    "C76_encoded_text",
    "C76_graph_partial",
    "C76_vertices_partial",
    "C76_refuted"
   ],
   "note": "False: line.unwrap() panics on invalid UTF-8 and on read errors (C76_refuted). Proved: loaders panic exactly if the first unreadable line comes before every malformed one, never loop, and on UTF-8 bytes behave as the text loaders of C62 and C74."
  },
  {
   "property": "C77",
   "status": "partial",
   "theorems": [
    "C77_degeneracy_loops_partial",
    "C77_order_refuted",
    "C77_panic_refuted"
   ],
   "note": "False: a vertex with a loop can be listed twice and another vertex be missing (C77_order_refuted; by_degeneracy, DegenGraph::from_graph and DTFGraph::orient then panic), or a degree underflows (C77_panic_refuted; debug builds). Proved for all graphs: termination, length of the order, only vertices, repetitions only of vertices with a loop and at most once."
  },
  {
   "property": "C78",
   "status": "proved",
   "theorems": [
    "C78_with_ordering_loops",
    "C78_by_degeneracy"
   ],
   "note": "Proved for all graphs and orders."
  },
  {
   "property": "C79",
   "status": "proved",
   "theorems": [
    "C79_with_ordering_drops_loops"
   ],
   "note": "Proved; the graph without loops is given extensionally."
  },
  {
   "property": "C80",
   "status": "proved",
   "theorems": [
    "C80_approximation"
   ],
   "note": "Any witness flag; hypothesis 'every vertex weakly r-reaches at most w vertices' stated by walks."
  },
  {
   "property": "C81",
   "status": "proved",
   "theorems": [
    "C81_witness_lower_bound",
    "C81_bracket"
   ],
   "note": "Lower bound for every returned witness; C81_bracket also shows that the call returns, for at most 130 targets (see C46 for the restriction)."
  },
  {
   "property": "C82",
   "status": "proved",
   "theorems": [
    "C82_same_results",
    "C82_witness_flag",
    "C82_with_witness",
    "C82_ord_degen"
   ],
   "note": "Two arbitrary HashIter instances and two arbitrary well-formed linear graphs; corollary for OrdGraph versus DegenGraph."
  },
  {
   "property": "C83",
   "status": "partial",
   "theorems": [
    "C83_same_results_partial",
    "C83_panics",
    "C83_refuted"
   ],
   "note": "False: ReachGraph::neighbours panics, so right_bfs, the reachability algorithms and domset panic on every non-empty ReachGraph for every radius beyond the trivial one (C83_panics, C83_refuted). Proved: left degrees, count_max_cliques, colour_greedy and the trivial radii agree."
  },
  {
   "property": "C84",
   "status": "proved",
   "theorems": [
    "C84_strong_is_weak",
    "C84_monotone",
    "C84_first_step",
    "C84_transitive"
   ],
   "note": "Stated on the outputs of sreach_set and wreach_sets only."
  },
  {
   "property": "C85",
   "status": "proved",
   "theorems": [
    "C85_sizes",
    "C85_domset"
   ],
   "note": "C85_domset combines the size bound with C80."
  },
  {
   "property": "C86",
   "status": "proved",
   "theorems": [
    "C86_graph",
    "C86_text"
   ],
   "note": "C86_graph for every well-formed loopless graph, C86_text for every edge-list text; degeneracy and domination are defined on the edge list alone."
  },
  {
   "property": "C87",
   "status": "proved",
   "theorems": [
    "C87_degeneracy",
    "C87_degeneracy_monotone",
    "C87_components",
    "C87_bipartite",
    "C87_neighbourhoods",
    "C87_operations",
    "C87_history",
    "C87_bulk",
    "C87_order_differs"
   ],
   "note": "Two arbitrary HashIter instances and two arbitrary well-formed graphs with the same vertices and edges. C87_order_differs shows that the order itself is not determined."
  },
  {
   "property": "C88",
   "status": "proved",
   "theorems": [
    "C88_witness_returned",
    "C88_certificate"
   ],
   "note": "Removes the restriction to 130 targets from C46, C48 and C81 on graphs with small weakly reachable sets; the bound 129 comes from the bucket queue of degeneracy (C24)."
  },
  {
   "property": "C89",
   "status": "partial",
   "theorems": [
    "C89_texts",
    "C89_text_file",
    "C89_gzip_partial",
    "C89_gzip_refuted",
    "C89_gzip_read",
    "C89_lost_refuted"
   ],
   "note": "C89_text_file is the full claim for text files. For gzipped files C89_gzip_partial says what success guarantees (the text is flushed, the end of the stream may be missing), C89_gzip_read that reading then delivers the text or an error, and C89_lost_refuted that a list of vertices can be lost with success reported and a panic on reading. BufWriter and GzEncoder are modelled from their library behaviour."
  },
  {
   "property": "C90",
   "status": "proved",
   "theorems": [
    "C90_degeneracy",
    "C90_degeneracy_embedding",
    "C90_components",
    "C90_bipartite",
    "C90_bipartite_embedding",
    "C90_counts",
    "C90_neighbourhoods",
    "C90_subgraph",
    "C90_history",
    "C90_operations",
    "C90_normalize",
    "C90_linear",
    "C90_extend",
    "C90_ordgraph",
    "C90_degen_normalize"
   ],
   "note": "General graphs: C90_degeneracy, C90_components, C90_bipartite, C90_counts, C90_neighbourhoods, C90_subgraph, C90_operations, C90_history, C90_normalize and the embedding variants. Linear graphs: C90_linear, with C90_ordgraph and C90_degen_normalize supplying renamed pairs and C90_extend showing that global injectivity of f costs nothing."
  },
  {
   "property": "C91",
   "status": "proved",
   "theorems": [
    "C91_merge",
    "C91_intersect",
    "C91_de_morgan",
    "C91_compare",
    "C91_subgraph",
    "C91_neighbourhoods",
    "C91_normalize",
    "C91_removals",
    "C91_ex_wf",
    "C91_ex_vertices"
   ],
   "note": "Equations are equalities of the returned states (C91_merge, C91_intersect, C91_de_morgan, C91_subgraph, C91_neighbourhoods, C91_normalize, C91_removals); C91_compare states the order laws through the returned comparison."
  },
  {
   "property": "C92",
   "status": "proved",
   "theorems": [
    "C92_path",
    "C92_cycle",
    "C92_clique",
    "C92_independent",
    "C92_matching",
    "C92_biclique",
    "C92_grid",
    "C92_complements",
    "C92_same_generators",
    "C92_cycle_path"
   ],
   "note": "C92_path, C92_cycle, C92_clique, C92_independent, C92_matching, C92_biclique and C92_grid give the three verdicts; C92_complements, C92_same_generators and C92_cycle_path are equalities of the returned states. The clique and biclique bounds stop where the bucket index of degeneracy stops being exact (C24)."
  },
  {
   "property": "C93",
   "status": "proved",
   "theorems": [
    "C93_disj_union_components",
    "C93_disj_union_bipartite",
    "C93_disj_union_degeneracy",
    "C93_cartesian_bipartite",
    "C93_cartesian_connected",
    "C93_cartesian_degeneracy",
    "C93_contract_components",
    "C93_subdivide_bipartite",
    "C93_subdivide_components",
    "C93_subdivide_degeneracy",
    "C93_grid_is_product",
    "C93_ex_reachable",
    "C93_ex_wf",
    "C93_ex_vertices",
    "C93_ex_loopless"
   ],
   "note": "Degeneracy statements assume upper bounds at most 129, where the bucket index of degeneracy is exact (C24); the cartesian statements assume factors with at least one non-isolated vertex where isolated pairs would be dropped (C31)."
  },
  {
   "property": "C94",
   "status": "partial",
   "theorems": [
    "C94_underlying",
    "C94_neighbourhoods",
    "C94_components",
    "C94_operations",
    "C94_is_bipartite",
    "C94_same_verdict",
    "C94_degeneracy",
    "C94_degeneracy_underlying",
    "C94_invert_exact",
    "C94_intersect_exact",
    "C94_compare_exact",
    "C94_oriented",
    "C94_degeneracy_loop_refuted",
    "C94_invert_refuted",
    "C94_self_refuted",
    "C94_counts_refuted"
   ],
   "note": "The last sentence is false and refuted: C94_invert_exact, C94_intersect_exact and C94_compare_exact give the exact results for all digraphs, C94_invert_refuted and C94_self_refuted the witnesses (the complement depends on the hash order; a digraph compares as incomparable to itself). degeneracy on loops repeats vertices (C94_degeneracy_loop_refuted); with antiparallel arcs num_edges and degree differ from e (C94_counts_refuted), without them they agree (C94_oriented). The products assume at most 2^32 vertex pairs and disj_union labels within u32."
  },
  {
   "property": "C95",
   "status": "partial",
   "theorems": [
    "C95_edges",
    "C95_ordgraph",
    "C95_ord_degeneracy",
    "C95_orient",
    "C95_file",
    "C95_subdivide",
    "C95_degengraph",
    "C95_orient_deep",
    "C95_same_refuted",
    "C95_loop_refuted"
   ],
   "note": "The first sentence is false and refuted: antiparallel arcs are counted twice by OrdGraph, repeated in the left slices and counted twice by DegenGraph, and give two paths in subdivide (C95_same_refuted); with a loop the constructions by degeneracy may panic (C95_loop_refuted). The theorems give the exact results for all digraphs. DegenGraph assumes 3|order| + arcs within u32; subdivide labels within u32."
  },
  {
   "property": "C96",
   "status": "partial",
   "theorems": [
    "C96_unimplemented",
    "C96_invert",
    "C96_in_neighbourhood",
    "C96_degrees",
    "C96_refuted"
   ],
   "note": "The sentence on layers is false for invert and the degree maps and refuted (C96_refuted): a layer answers adjacent, degree, in_degree and out_degree for all weights. C96_invert and C96_degrees give the exact results of both; in_neighbourhood is as stated for both; C96_unimplemented lists the functions that panic. The degree maps are for graphs reached by orient, augment and domset."
  },
  {
   "property": "C97",
   "status": "partial",
   "theorems": [
    "C97_neighbourhoods",
    "C97_in_out",
    "C97_digraph_neighbours",
    "C97_left",
    "C97_left_reach",
    "C97_dtf_at",
    "C97_dtf_all",
    "C97_unsupported",
    "C97_fused",
    "C97_refuted"
   ],
   "note": "Digraph::neighbours is not a set: a vertex joined by arcs both ways is listed twice (C97_refuted); C97_digraph_neighbours gives its exact contents, and that it equals Graph::neighbours of EditDigraph. The rest is proved as stated; in all-depths mode the lists of a DTFGraph are free of repetitions if each arc has one weight."
  },
  {
   "property": "C98",
   "status": "proved",
   "theorems": [
    "C98_get",
    "C98_queries",
    "C98_insert",
    "C98_iter"
   ],
   "note": "Proved for every sequence of calls; colours, disjoint_extend, subset, invert and majority_set are C63, C64 and C69."
  },
  {
   "property": "C99",
   "status": "proved",
   "theorems": [
    "C99_history",
    "C99_same_state",
    "C99_counts",
    "C99_degree_maps",
    "C99_neighbourhoods",
    "C99_bulk",
    "C99_undirected",
    "C99_normalize",
    "C99_normalize_other"
   ],
   "note": "Proved for all histories, renamings and hash orders; the dependence of normalize on the order of the labels is shown by C99_normalize_other, that of invert by C94_invert_refuted."
  },
  {
   "property": "C100",
   "status": "proved",
   "theorems": [
    "C100_approximation",
    "C100_exact",
    "C100_radius_one",
    "C100_forest"
   ],
   "note": "The general bound is stated against small_distance on the augmented graph, because C54 shows that distances can be overestimated; exact cases (radius 1, forests, closed augmentations) are covered without that restriction."
  },
  {
   "property": "C101",
   "status": "proved",
   "theorems": [
    "C101_reasons",
    "C101_closed",
    "C101_forest"
   ],
   "note": "The converse for fraternal pairs does not hold; C54_refuted and C72 show that fraternal arcs can be lost."
  },
  {
   "property": "C102",
   "status": "proved",
   "theorems": [
    "C102_total",
    "C102_neighbours",
    "C102_hereditary",
    "C102_large",
    "C102_left_degree",
    "C102_degeneracy",
    "C102_traces_independent",
    "C102_shattered_independent"
   ],
   "note": "Exponents for which 2usize.pow overflows panic (C59_shattered_refuted) and are excluded by the hypothesis that the call returns."
  },
  {
   "property": "C103",
   "status": "proved",
   "theorems": [
    "C103_multipartite",
    "C103_triangle_free",
    "C103_path",
    "C103_cycle",
    "C103_matching",
    "C103_grid",
    "C103_clique",
    "C103_independent",
    "C103_complete_kpartite",
    "C103_biclique",
    "C103_path_reach",
    "C103_clique_reach",
    "C103_path_sizes",
    "C103_clique_sizes",
    "C103_shown"
   ],
   "note": "count_max_cliques is wrong in general (C44); these are families on which it is right in every order."
  },
  {
   "property": "C104",
   "status": "proved",
   "theorems": [
    "C104_add_vertex",
    "C104_add_edge_components",
    "C104_add_edge_bipartite",
    "C104_add_edge_degeneracy",
    "C104_remove_edge_components",
    "C104_remove_edge_degeneracy",
    "C104_remove_vertex_degeneracy",
    "C104_remove_vertex_components",
    "C104_reach"
   ],
   "note": "The lower degeneracy bound is monotone, but may change by more than one above 129; only its monotonicity is claimed."
  },
  {
   "property": "C105",
   "status": "proved",
   "theorems": [
    "C105_degree_sum",
    "C105_degree_sum_linear",
    "C105_degeneracy_edges",
    "C105_degree_sum_digraph",
    "C105_invert",
    "C105_merge_intersect",
    "C105_cartesian",
    "C105_lexicographic"
   ],
   "note": "The degeneracy bounds are stated for values up to 129, where degeneracy is exact (C24)."
  },
  {
   "property": "C106",
   "status": "proved",
   "theorems": [
    "C106_invert_connected",
    "C106_merge_degeneracy",
    "C106_merge_components",
    "C106_merge_bipartite",
    "C106_intersect",
    "C106_intersect_degeneracy",
    "C106_lexicographic_bipartite",
    "C106_lexicographic_connected"
   ],
   "note": "The bound 2*(d1+d2) on the degeneracy of a union is stated for bounds up to 129, where degeneracy is exact (C24)."
  },
  {
   "property": "C107",
   "status": "proved",
   "theorems": [
    "C107_forest",
    "C107_odd_cycle",
    "C107_bipartite_edges",
    "C107_clique_degeneracy",
    "C107_clique_linear"
   ],
   "note": "The bound by the degeneracy is stated for cliques up to 130 vertices, where degeneracy is exact (C24)."
  },
  {
   "property": "C108",
   "status": "proved",
   "theorems": [
    "C108_component_ball",
    "C108_balls",
    "C108_domset_ball",
    "C108_domset_components",
    "C108_dtf_domset",
    "C108_dtf_distance",
    "C108_parity"
   ],
   "note": "That the DTF distance can be larger than the distance is C54_refuted."
  },
  {
   "property": "C109",
   "status": "proved",
   "theorems": [
    "C109_saved",
    "C109_remove_isolates"
   ],
   "note": "That a saved graph with isolated vertices is not equal to the loaded one is C61_roundtrip_refuted."
  },
  {
   "property": "C110",
   "status": "proved",
   "theorems": [
    "C110_balls",
    "C110_components",
    "C110_pair"
   ],
   "note": "What the panics of contraction are, and what contracting a vertex into itself does, is in C09."
  }
 ]
}