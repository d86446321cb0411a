(** The repository's own unit tests and the examples of its documentation, run on the model.  They are tests, not proofs: they check that the model answers what
    the authors expect of the code.  Each definition transcribes the assertions of one test and says which; [Ok true] means
    that none fails and nothing panics.  Every test is run under two hash orders.  Left out are the tests on the large data
    files (Yeast, DNC) and on the grids of more than 36 vertices, for the time they take; random choices of the tests are fixed. *)
From Verif Require Import Base M_Graph M_Iterators M_EditGraph M_EditDigraph M_Algorithms M_Operations M_OrdGraph M_DegenGraph M_ReachGraph
  M_Linear M_Domset M_DTF M_Trace M_IO M_File M_Colouring M_ColourMap M_Neighbourhoods.
Local Open Scope N_scope.

(** The bytes of resources/karate.txt (data, not code). *)
Definition karate_bytes : list N := [
   49; 32; 51; 50; 10; 49; 32; 50; 10; 49; 32; 51; 10; 49; 32; 52; 10; 49; 32; 53; 10; 49; 32; 54; 10; 49; 32; 55; 10;
   49; 32; 56; 10; 49; 32; 57; 10; 49; 32; 49; 49; 10; 49; 32; 49; 50; 10; 49; 32; 49; 51; 10; 49; 32; 49; 52; 10; 49;
   32; 49; 56; 10; 49; 32; 50; 48; 10; 49; 32; 50; 50; 10; 50; 32; 51; 10; 50; 32; 52; 10; 50; 32; 56; 10; 50; 32; 49;
   52; 10; 50; 32; 49; 56; 10; 50; 32; 50; 48; 10; 50; 32; 50; 50; 10; 50; 32; 51; 49; 10; 51; 32; 51; 51; 10; 51; 32;
   52; 10; 51; 32; 56; 10; 51; 32; 57; 10; 51; 32; 49; 48; 10; 51; 32; 49; 52; 10; 51; 32; 50; 56; 10; 51; 32; 50; 57;
   10; 52; 32; 56; 10; 52; 32; 49; 51; 10; 52; 32; 49; 52; 10; 53; 32; 49; 49; 10; 53; 32; 55; 10; 54; 32; 49; 49; 10;
   54; 32; 49; 55; 10; 54; 32; 55; 10; 55; 32; 49; 55; 10; 57; 32; 51; 52; 10; 57; 32; 51; 51; 10; 57; 32; 51; 49; 10;
   49; 48; 32; 51; 52; 10; 49; 52; 32; 51; 52; 10; 49; 53; 32; 51; 51; 10; 49; 53; 32; 51; 52; 10; 49; 54; 32; 51; 51;
   10; 49; 54; 32; 51; 52; 10; 49; 57; 32; 51; 51; 10; 49; 57; 32; 51; 52; 10; 50; 48; 32; 51; 52; 10; 50; 49; 32; 51;
   51; 10; 50; 49; 32; 51; 52; 10; 50; 51; 32; 51; 51; 10; 50; 51; 32; 51; 52; 10; 50; 52; 32; 51; 51; 10; 50; 52; 32;
   50; 54; 10; 50; 52; 32; 50; 56; 10; 50; 52; 32; 51; 52; 10; 50; 52; 32; 51; 48; 10; 50; 53; 32; 51; 50; 10; 50; 53;
   32; 50; 54; 10; 50; 53; 32; 50; 56; 10; 50; 54; 32; 51; 50; 10; 50; 55; 32; 51; 52; 10; 50; 55; 32; 51; 48; 10; 50;
   56; 32; 51; 52; 10; 50; 57; 32; 51; 50; 10; 50; 57; 32; 51; 52; 10; 51; 48; 32; 51; 51; 10; 51; 48; 32; 51; 52; 10;
   51; 49; 32; 51; 52; 10; 51; 49; 32; 51; 51; 10; 51; 50; 32; 51; 52; 10; 51; 50; 32; 51; 51; 10; 51; 51; 32; 51; 52;
   10].

(** Test vocabulary (not code): all assertions hold; every item passes; sets from lists. *)
Definition tests (l : list bool) : res bool := Ok (forallb id l).
Fixpoint test_all {A} (f : A → res bool) (l : list A) : res bool :=
  match l with [] => Ok true | x :: l => b ← f x; if (b : bool) then test_all f l else Ok false end.
Definition sset (l : list N) : gset N := list_to_set l.
Definition eqs (X Y : gset N) : bool := bool_decide (X = Y).
Definition eqn (a b : nat) : bool := Nat.eqb a b.

Section tests.
Context `{HashIter}.

(** The calls [add_edge] one after the other (vocabulary of the tests, not code). *)
Definition of_edges (es : list (N * N)) : res editgraph := fold_res (λ g e, r ← eg_add_edge g e.1 e.2; Ok r.1) es eg_new.
Definition of_arcs (es : list (N * N)) : res editdigraph := fold_res (λ g e, r ← ed_add_arc g e.1 e.2; Ok r.1) es ed_new.

(** The karate graph (data), loaded by the modelled reader. *)
Definition karate : res editgraph := r ← eg_from_buf (Reader karate_bytes true); match r with IoOk g => Ok g | IoErr _ => Panic end.

(** editgraph.rs:547-560. *)
Definition rt_edge_cases : res bool :=
  k0 ← eg_clique 0; k1 ← eg_clique 1; p0 ← eg_path 0; p1 ← eg_path 1; c0 ← eg_cycle 0; c1 ← eg_cycle 1; c2 ← eg_cycle 2; m1 ← eg_matching 1;
  tests [eqn (eg_num_vertices k0) 0; eqn (eg_num_vertices k1) 1; eqn (eg_num_vertices p0) 0; eqn (eg_num_vertices p1) 1;
    eqn (eg_num_vertices c0) 0; eqn (eg_num_vertices c1) 1; eqn (eg_num_edges c1) 1; eqn (eg_num_vertices c2) 2; eqn (eg_num_edges c2) 1;
    eqn (eg_num_edges m1) 1].
(** editgraph.rs:562-570. *)
Definition rt_components : res bool :=
  g ← eg_matching 10; cs ← components (eg_graph g); es ← edges (eg_graph g); k ← eg_clique 5; cs' ← components (eg_graph k);
  tests [eqn (length cs) (length es); eqn (length cs') 1].
(** editgraph.rs:572-592. *)
Definition rt_disj_union : res bool :=
  m ← eg_matching 5; g ← eg_disj_union m (eg_graph m); cs ← components (eg_graph g); es ← edges (eg_graph g);
  k2 ← eg_clique 2; a ← eg_disj_union k2 (eg_graph eg_new); b ← eg_disj_union eg_new (eg_graph k2);
  h1 ← eg_clique 5; h2 ← eg_clique 6; c ← eg_disj_union h1 (eg_graph h2); d ← eg_disj_unions [eg_graph h1; eg_graph h2];
  tests [eqn (length cs) (length es); eg_eq k2 a; eg_eq k2 b; eg_eq c d].
(** editgraph.rs:594-606. *)
Definition rt_neighbourhoods : res bool :=
  g ← of_edges [(0, 1); (1, 2); (2, 3); (3, 4)];
  a ← neighbourhood (eg_graph g) [2]; b ← neighbourhood (eg_graph g) [1; 2]; c ← neighbourhood (eg_graph g) [1; 3];
  tests [eqs a (sset [1; 3]); eqs b (sset [0; 3]); eqs c (sset [0; 2; 4])].
(** editgraph.rs:608-622. *)
Definition rt_equality : res bool :=
  g ← of_edges [(0, 1); (1, 2); (2, 3); (3, 0)]; h ← subgraph (eg_graph g) [0; 1; 2; 3]; h2 ← eg_add_edge h 0 2; h3 ← eg_remove_edge h2.1 0 2;
  tests [eg_eq g h; negb (eg_eq g h2.1); eg_eq g h3.1].
(** editgraph.rs:624-647. *)
Definition rt_isolates_and_loops : res bool :=
  g ← of_edges [(0, 1); (0, 0); (2, 2)]; h ← eg_remove_loops g; i ← eg_remove_isolates h.1; j ← eg_remove_edge i.1 0 1; k ← eg_remove_isolates j.1;
  tests [eqn (eg_num_vertices g) 3; eqn (eg_num_edges g) 3; eqn (eg_num_vertices h.1) 3; eqn (eg_num_edges h.1) 1;
    eqn (eg_num_vertices i.1) 2; eqn (eg_num_edges i.1) 1; eg_eq k.1 eg_new].
(** editgraph.rs:649-665. *)
Definition rt_N_iteration : res bool :=
  g ← of_edges [(0, 1); (0, 2); (0, 3); (0, 4); (0, 5)]; l ← collect_it (neigh_next (eg_graph g)) 10 (ni_new (eg_graph g));
  tests (eqn (length l) 6 :: map (λ p : N * list N, if p.1 =? 0 then eqs (sset p.2) (sset [1; 2; 3; 4; 5]) else eqs (sset p.2) (sset [0])) l).
(** editgraph.rs:667-681. *)
Definition rt_edge_iteration : res bool :=
  g ← of_edges [(0, 1); (0, 2); (0, 3); (0, 4); (0, 5)]; es ← edges (eg_graph g); tests [eqn (length es) 5].
(** editgraph.rs:683-722. *)
Definition rt_basic_operations : res bool :=
  let g := (eg_add_vertex (eg_add_vertex (eg_add_vertex eg_new 0).1 1).1 2).1 in
  a ← eg_add_edge g 0 1; b ← eg_remove_edge a.1 0 1;
  c ← eg_add_edge b.1 0 1; c ← eg_add_edge c.1 0 2; c ← eg_add_edge c.1 1 2;
  d ← eg_remove_vertex c.1 2; e ← eg_remove_vertex d.1 1; f ← eg_remove_vertex e.1 0;
  tests [eqn (eg_num_edges g) 0; eqn (eg_degree a.1 0) 1; eqn (eg_degree a.1 1) 1; eqn (eg_degree a.1 2) 0; eqn (eg_num_vertices a.1) 3; eqn (eg_num_edges a.1) 1;
    eqn (eg_degree b.1 0) 0; eqn (eg_degree b.1 1) 0; eqn (eg_num_edges b.1) 0; eqn (eg_degree c.1 0) 2; eqn (eg_num_edges c.1) 3;
    eqn (eg_degree d.1 0) 1; eqn (eg_num_vertices d.1) 2; eqn (eg_num_edges d.1) 1; eqn (eg_degree e.1 0) 0; eqn (eg_num_vertices e.1) 1; eqn (eg_num_edges e.1) 0;
    eqn (eg_num_vertices f.1) 0; eqn (eg_num_edges f.1) 0].
(** editgraph.rs:724-736. *)
Definition rt_contract_pair : res bool :=
  g ← of_edges [(0, 1); (1, 2); (2, 3)]; g ← eg_contract_pair g 1 2; l ← neighbours (eg_graph g) 1;
  tests [eg_contains g 1; negb (eg_contains g 2); eqs (sset l) (sset [0; 3])].
(** editgraph.rs:738-769. *)
Definition rt_contract : res bool :=
  g ← of_edges [(0, 1); (1, 2); (2, 0); (0, 3); (1, 4); (2, 5)];
  g1 ← eg_clone g; h ← eg_contract_into g1 0 [0; 1; 2]; g2 ← eg_clone g; hh ← eg_contract g2 [0; 1; 2];
  g3 ← eg_clone g; k ← eg_contract_into g3 0 [0; 1]; l ← neighbours (eg_graph k) 0;
  tests [eqn (eg_num_vertices h) 4; eqs (sset (vertices (eg_graph h))) (sset [0; 3; 4; 5]); eg_eq h hh.1;
    eqn (eg_num_vertices k) 5; eqs (sset l) (sset [2; 3; 4]); eqs (sset (vertices (eg_graph k))) (sset [0; 2; 3; 4; 5])].
(** editgraph.rs:771-800. *)
Definition rt_basic_graphs : res bool :=
  s ← eg_star 6;
  b ← test_all (λ p : N * N, g ← eg_grid p.1 p.2;
        tests [N.of_nat (eg_num_vertices g) =? p.1 * p.2; N.of_nat (eg_num_edges g) =? 2 * p.1 * p.2 - p.1 - p.2]) [(5, 6); (6, 9); (1, 6); (6, 1)];
  tests [eqn (eg_num_vertices s) 7; eqn (eg_num_edges s) 6; b].

(** io.rs:262-272, without the compressed file. *)
Definition rt_read_graph : res bool := g ← karate; tests [eqn (eg_num_vertices g) 34; eqn (eg_num_edges g) 78].
(** io.rs:274-286, 288-311 and 313-336: the files are written and read back, with the compression left out (the identity). *)
Definition rt_write_graph : res bool :=
  g ← eg_biclique 3 3; t ← graph_write (eg_graph g);
  let fs := write_gzipped id (write_txt ∅ [116; 46; 116; 120; 116] t) [116; 46; 103; 122] t in
  a ← from_txt eg_from_buf fs [116; 46; 116; 120; 116]; b ← from_gzipped id eg_from_buf fs [116; 46; 103; 122];
  Ok (match a, b with FOk a, FOk b => eg_eq a b && eg_eq a g | _, _ => false end).
Definition rt_read_write_set : res bool :=
  let S := sset [1; 2; 999] in
  let fs := write_gzipped id (write_txt ∅ [116; 46; 116; 120; 116] (vset_write S)) [116; 46; 103; 122] (vset_write S) in
  a ← from_txt vset_from_buf fs [116; 46; 116; 120; 116]; b ← from_gzipped id vset_from_buf fs [116; 46; 103; 122];
  c ← from_file id vset_from_buf fs [116; 46; 116; 120; 116]; d ← from_file id vset_from_buf fs [116; 46; 103; 122];
  Ok (match a, b, c, d with FOk a, FOk b, FOk c, FOk d => eqs a S && eqs b S && eqs c S && eqs d S | _, _, _, _ => false end).
Definition rt_read_write_vec : res bool :=
  let S := [1; 2; 999] in
  let fs := write_gzipped id (write_txt ∅ [116; 46; 116; 120; 116] (vec_write S)) [116; 46; 103; 122] (vec_write S) in
  a ← from_txt vec_from_buf fs [116; 46; 116; 120; 116]; b ← from_gzipped id vec_from_buf fs [116; 46; 103; 122];
  c ← from_file id vec_from_buf fs [116; 46; 116; 120; 116]; d ← from_file id vec_from_buf fs [116; 46; 103; 122];
  Ok (match a, b, c, d with FOk a, FOk b, FOk c, FOk d => bool_decide (a = S ∧ b = S ∧ c = S ∧ d = S) | _, _, _, _ => false end).

(** operations.rs:161-171. *)
Definition rt_invert : res bool :=
  k ← eg_clique 5; i ← invert (eg_graph k); k' ← invert (eg_graph i);
  tests [eqn (eg_num_vertices i) 5; eqn (eg_num_edges i) 0; eqn (eg_num_vertices k') 5; eqn (eg_num_edges k') 10].
(** operations.rs:173-188. *)
Definition rt_merge : res bool :=
  g ← eg_from_iter [(0, 1); (2, 3)]; h ← eg_from_iter [(1, 2); (3, 0)]; c4 ← eg_cycle 4;
  a ← merge_graphs (eg_graph g) (eg_graph h); b ← merge_graphs (eg_graph h) (eg_graph g);
  g' ← eg_from_iter [(0, 1); (1, 2)]; h' ← eg_from_iter [(2, 3); (3, 4)]; p5 ← eg_path 5;
  a' ← merge_graphs (eg_graph g') (eg_graph h'); b' ← merge_graphs (eg_graph h') (eg_graph g');
  tests [eg_eq a c4; eg_eq b c4; eg_eq a' p5; eg_eq b' p5].
(** operations.rs:190-206. *)
Definition rt_intersect : res bool :=
  g ← eg_from_iter [(0, 1); (1, 2)]; h ← eg_from_iter [(0, 1); (1, 3)]; r ← eg_from_iter [(0, 1)];
  a ← intersect_graphs (eg_graph g) (eg_graph h); b ← intersect_graphs (eg_graph h) (eg_graph g);
  g' ← eg_from_iter [(0, 1)]; h' ← eg_from_iter [(0, 2)]; let r' := (eg_add_vertex eg_new 0).1 in
  a' ← intersect_graphs (eg_graph g') (eg_graph h'); b' ← intersect_graphs (eg_graph h') (eg_graph g');
  tests [eg_eq a r; eg_eq b r; eg_eq a' r'; eg_eq b' r'].
(** operations.rs:208-220. *)
Definition rt_subdivide : res bool :=
  g ← eg_path 2; r ← eg_from_iter [(0, 2); (2, 1)]; a ← subdivide (eg_graph g) 1;
  r' ← eg_from_iter [(0, 2); (2, 3); (3, 1)]; b ← subdivide (eg_graph g) 2; c3 ← eg_cycle 3; c ← subdivide (eg_graph c3) 0;
  tests [eg_eq a r; eg_eq b r'; eg_eq c c3].
(** operations.rs:222-230. *)
Definition rt_cartesian_product : res bool :=
  g ← eg_path 2; r ← cartesian_product (eg_graph g) (eg_graph g); tests [eqn (eg_num_vertices r.1) 4; eqn (eg_num_edges r.1) 4].
(** operations.rs:232-243. *)
Definition rt_lexicographic_product : res bool :=
  g ← eg_path 2; r ← lexicographic_product (eg_graph g) (eg_graph g); q ← eg_remove_loops r.1;
  tests [eqn q.2 0; eqn (eg_num_vertices q.1) 4; eqn (eg_num_edges q.1) 6].
(** compare.rs:47-61. *)
Definition rt_compare : res bool :=
  k5 ← eg_clique 5; k4 ← eg_clique 4; k6 ← eg_clique 6; p5 ← eg_path 5; c5 ← eg_cycle 5; c4 ← eg_cycle 4;
  a ← compare_subgraph (eg_graph k5) (eg_graph k5); b ← compare_subgraph (eg_graph k5) (eg_graph k4); c ← compare_subgraph (eg_graph k5) (eg_graph k6);
  d ← compare_subgraph (eg_graph p5) (eg_graph c5); e ← compare_subgraph (eg_graph p5) (eg_graph k5); f ← compare_subgraph (eg_graph c5) (eg_graph k5);
  i ← compare_subgraph (eg_graph c5) (eg_graph c4);
  Ok (match a, b, c, d, e, f, i with RelEq, RelSup, RelSub, RelSub, RelSub, RelSub, RelIncomp => true | _, _, _, _, _, _, _ => false end).

(** editdigraph.rs:406-430; the order in which out_neighbours lists the vertices is that of the hash set, so sets are compared. *)
Definition rt_add_remove_arcs : res bool :=
  g ← of_arcs [(0, 1); (0, 2); (0, 3)]; a ← ed_out_neighbours g 0;
  h ← ed_remove_arc g 0 3; b ← ed_out_neighbours h.1 0; i ← ed_remove_arc h.1 0 2; c ← ed_out_neighbours i.1 0; j ← ed_remove_arc i.1 0 1;
  og ← ed_out_degree g 0; ig ← ed_in_degree g 0; oh ← ed_out_degree h.1 0; ih ← ed_in_degree h.1 0;
  oi ← ed_out_degree i.1 0; ii ← ed_in_degree i.1 0; oj ← ed_out_degree j.1 0; ij ← ed_in_degree j.1 0;
  tests [eqn og 3; eqn ig 0; eqs (sset a) (sset [1; 2; 3]); eqn oh 2; eqn ih 0; eqs (sset b) (sset [1; 2]); eqn oi 1; eqn ii 0; eqs (sset c) (sset [1]); eqn oj 0; eqn ij 0].
(** editdigraph.rs:432-446. *)
Definition rt_remove_vertex : res bool :=
  g ← of_arcs [(0, 1); (0, 2); (0, 3); (1, 0); (2, 0); (3, 0)]; h ← ed_remove_vertex g 0; tests [eqn (ed_num_edges h.1) 0].
(** editdigraph.rs:449-470. *)
Definition rt_di_neighbourhoods : res bool :=
  g ← of_arcs [(0, 1); (1, 2); (2, 3); (3, 4)]; let G := ed_graph g in let D := ed_digraph g in
  a ← neighbourhood G [2]; b ← neighbourhood G [1; 2]; c ← neighbourhood G [1; 3];
  d ← in_neighbourhood D [2]; e ← out_neighbourhood D [2]; f ← in_neighbourhood D [1; 2]; i ← out_neighbourhood D [1; 2];
  j ← in_neighbourhood D [1; 3]; k ← out_neighbourhood D [1; 3];
  tests [eqs a (sset [1; 3]); eqs b (sset [0; 3]); eqs c (sset [0; 2; 4]); eqs d (sset [1]); eqs e (sset [3]); eqs f (sset [0]); eqs i (sset [3]);
    eqs j (sset [0; 2]); eqs k (sset [2; 4])].
(** editdigraph.rs:472-486. *)
Definition rt_arcs : res bool :=
  g ← of_arcs [(0, 1); (1, 2); (2, 3); (3, 4)]; l ← arcs (ed_digraph g);
  tests [eqn (ed_num_edges g) 4; bool_decide ((list_to_set l : gset (N * N)) = list_to_set [(0, 1); (1, 2); (2, 3); (3, 4)])].

(** dtfgraph.rs:640-649. *)
Definition rt_dtf_iteration : res bool :=
  h ← df_add_arc df_new 1 0 1; h ← df_add_arc h 2 0 1; h ← df_add_arc h 3 0 1; l ← df_in_at h 0 1; tests [eqs (sset l) (sset [1; 2; 3])].
(** dtfgraph.rs:651-665. *)
Definition rt_edge_subgraph : res bool :=
  g ← of_edges [(0, 1); (0, 2)]; h ← df_add_arc df_new 0 1 1; h ← df_add_arc h 0 3 1; es ← edges (eg_graph g);
  hh ← df_edge_subgraph h es; m ← df_num_edges hh; a ← df_has_arc_at hh 0 1 1; b ← df_has_arc_at hh 1 0 1; tests [eqn m 1; a; negb b].
(** dtfgraph.rs:667-678. *)
Definition rt_dtf_domset : res bool :=
  g ← karate; h ← df_orient (eg_graph g);
  r ← fold_res (λ st r, d ← df_domset st.1 r; X ← r_neighbourhood (eg_graph g) (elements d.1) r; Ok (d.2, st.2 && eqn (size X) (eg_num_vertices g)))
        [1; 2; 3; 4]%nat (h, true);
  Ok r.2.
(** dtfgraph.rs:680-703 (not run by the repository: its attribute is commented out). *)
Definition rt_dtf_distance : res bool :=
  g ← of_edges [(0, 1); (1, 2); (2, 3); (3, 4)]; h ← df_orient (eg_graph g); h ← df_augment h 4 2;
  test_all (λ p : N * N * nat, d ← df_small_distance h p.1.1 p.1.2; Ok (bool_decide (d = Some p.2)))
    [(0, 1, 1%nat); (1, 2, 1%nat); (2, 3, 1%nat); (3, 4, 1%nat); (0, 2, 2%nat); (1, 3, 2%nat); (2, 4, 2%nat); (0, 3, 3%nat); (1, 4, 3%nat); (0, 4, 4%nat)].

(** graph.rs:718-726. *)
Definition rt_ordering : res bool :=
  g ← eg_path 5; o ← og_with_ordering (eg_graph g) [4; 3; 2; 1; 0];
  a ← leftmost (og_lgraph o) [3; 2; 1]; b ← rightmost (og_lgraph o) [3; 2; 1]; c ← leftmost (og_lgraph o) [0];
  tests [bool_decide (a = Some 3); bool_decide (b = Some 1); bool_decide (c = Some 0)].
(** graph.rs:728-747. *)
Definition rt_vertex_map : res bool :=
  let m : gmap N N := list_to_map [(0, 100); (1, 100); (2, 100); (3, 200); (4, 200); (5, 300)] in let i := vm_invert m in
  r ← vm_majority_set m;
  tests [bool_decide (i !! 100 = Some (sset [0; 1; 2])); bool_decide (i !! 200 = Some (sset [3; 4])); bool_decide (i !! 300 = Some (sset [5]));
    eqs (dom i) (sset [100; 200; 300]); match r with Some (X, c) => eqs X (sset [0; 1; 2]) && (c =? 100) | None => false end].
(** graph.rs:749-780. *)
Definition rt_vertex_colouring : res bool :=
  let a := cm_from_iter [(1, 100); (2, 100); (3, 200); (4, 200); (5, 300)] in let b := cm_from_iter [(5, 100); (6, 100); (7, 200); (8, 200); (9, 300)] in
  c ← vc_disjoint_extend ty_u32 a b;
  x ← test_all (λ p : N * N, v ← cm_index a p.1; w ← cm_index c p.1; tests [v =? p.2; w =? p.2]) [(1, 100); (2, 100); (3, 200); (4, 200); (5, 300)];
  tests [eqs (sset (vc_colours a)) (sset [100; 200; 300]); eqs (sset (cm_vertices a)) (sset [1; 2; 3; 4; 5]); x;
    eqs (sset (cm_vertices c)) (sset [1; 2; 3; 4; 5; 6; 7; 8; 9]); eqn (length (vc_colours c)) 6;
    bool_decide (vc_from_sets [sset [1; 2; 3]; sset [4; 5; 6]] = cm_from_iter [(1, 0); (2, 0); (3, 0); (4, 1); (5, 1); (6, 1)])].

(** iterators.rs:490-496. *)
Definition rt_edge_iterator : res bool :=
  g ← eg_clique 4; es ← edges (eg_graph g);
  tests [bool_decide ((list_to_set es : gset (N * N)) = list_to_set [(0, 1); (0, 2); (0, 3); (1, 2); (1, 3); (2, 3)])].
(** iterators.rs:498-508. *)
Definition rt_N_iterator : res bool :=
  g ← eg_biclique 2 2; l ← collect_it (neigh_next (eg_graph g)) 10 (ni_new (eg_graph g));
  tests (eqn (length l) 4 :: map (λ p : N * list N, eqn (eg_degree g p.1) (size (sset p.2)) && forallb (λ u, eg_adjacent g u p.1) p.2) l).
(** iterators.rs:510-523. *)
Definition rt_mixed_iterator : res bool :=
  g ← eg_biclique 4 5; l ← vertices_and_edges (eg_graph g); es ← edges (eg_graph g);
  tests [eqs (sset (omap (λ x, match x with VE_V v => Some v | VE_E _ => None end) l)) (sset (vertices (eg_graph g)));
    bool_decide ((list_to_set (omap (λ x, match x with VE_E e => Some e | VE_V _ => None end) l) : gset (N * N)) = list_to_set es)].
(** iterators.rs:525-536. *)
Definition rt_wreach_iterator : res bool :=
  g ← karate; o ← og_by_degeneracy (eg_graph g); w ← og_to_wreach_graph 5 o;
  st ← ri_new 5 w; l ← collect_it (ri_next 5 w) 100 st;
  b ← test_all (λ p : N * reachables, r ← rg_reachables 5 w p.1; tests [p.1 =? ra_from p.2; bool_decide (ra_segs r = ra_segs p.2 ∧ ra_from r = ra_from p.2)]) l;
  tests [eqn (length l) 34; b].

(** ordgraph.rs:273-280. *)
Definition rt_og_order : res bool :=
  g ← eg_path 20; let order := reverse (range 0 20) in o ← og_with_ordering (eg_graph g) order; tests [bool_decide (order = vertices (og_lgraph o))].
(** ordgraph.rs:282-311. *)
Definition rt_wreach_graph : res bool :=
  g ← karate; o ← og_by_degeneracy (eg_graph g); w ← og_to_wreach_graph 5 o; W ← wreach_sets (og_lgraph o) 5;
  test_all (λ u, r ← rg_reachables 5 w u; S ← unwrap (W !! u);
    b ← test_all (λ d, l ← ra_at 5 r d; is ← fold_res (λ acc v, i ← unwrap (og_indices o !! v); Ok (acc ++ [i])) l [];
          tests [forallb (λ v, bool_decide (S !! v = Some d)) l; sorted_nat is]) [1; 2; 3; 4; 5]%nat;
    tests [eqn (ra_len r) (size S); b]) (vertices (eg_graph g)).
(** ordgraph.rs:313-354. *)
Definition rt_og_consistency : res bool :=
  k ← eg_clique 5; o ← og_with_ordering (eg_graph k) [0; 1; 2; 3; 4];
  a ← test_all (λ p : N * list N, d ← left_degree (og_lgraph o) p.1; l ← left_neighbours (og_lgraph o) p.1;
        tests [N.of_nat d =? p.1; bool_decide (l = p.2)]) [(0, []); (1, [0]); (2, [0; 1]); (3, [0; 1; 2]); (4, [0; 1; 2; 3])];
  g ← karate; dg ← degeneracy (eg_graph g); let '(lo, up, order, _) := dg in
  o ← og_with_ordering (eg_graph g) order; ds ← left_degrees (og_lgraph o);
  m ← fold_res (λ acc u, d ← left_degree (og_lgraph o) u; l ← left_neighbours (og_lgraph o) u; Ok (acc.1 + d, acc.2 && eqn d (length l))%nat)
        (vertices (og_lgraph o)) (0%nat, true);
  es ← edges (og_lgraph o); fs ← edges (eg_graph g);
  tests [a; eqn lo up; eqn (foldr max 0%nat (map_to_list ds).*2) up; m.2; eqn m.1 (eg_num_edges g);
    forallb (λ e : N * N, eg_adjacent g e.1 e.2) es; forallb (λ e : N * N, adjacent (og_lgraph o) e.1 e.2) fs].
(** ordgraph.rs:356-373.  The order contains 8, which is no vertex of the graph. *)
Definition rt_og_sreach : res bool :=
  g ← eg_path 8; h ← eg_add_edges g [(2, 5); (1, 6); (0, 7)]; o ← og_with_ordering (eg_graph h.1) (range 0 9);
  S ← sreach_set (og_lgraph o) 4 5;
  tests (map (λ p : N * nat, bool_decide (S !! p.1 = Some p.2)) [(3, 1%nat); (2, 2%nat); (1, 3%nat); (0, 4%nat)]).
(** ordgraph.rs:375-392. *)
Definition rt_og_cliques : res bool :=
  k ← eg_clique 5; o ← og_with_ordering (eg_graph k) [0; 1; 2; 3; 4]; a ← count_max_cliques (og_lgraph o);
  g ← eg_complete_kpartite [5; 5; 5]; o ← og_by_degeneracy (eg_graph g); b ← count_max_cliques (og_lgraph o);
  o ← og_with_ordering (eg_graph (eg_independent 5)) [0; 1; 2; 3; 4]; c ← count_max_cliques (og_lgraph o);
  tests [eqn a 1; eqn b 125; eqn c 5].

(** degengraph.rs:392-433. *)
Definition rt_dg_basics : res bool :=
  g ← eg_path 3; d ← dg_with_ordering (eg_graph g) [0; 1; 2]; let D := dg_lgraph d in
  l ← collect_it (di_next d) 10 (di_new d);
  k ← karate; dk ← dg_from_graph (eg_graph k); l' ← collect_it (di_next dk) 100 (di_new dk);
  b ← test_all (λ p : N * list N, ld ← dg_left_degree dk p.1; tests [eqn ld (length p.2); forallb (λ u, adjacent (dg_lgraph dk) u p.1) p.2]) l';
  tests [adjacent D 0 1; adjacent D 1 0; adjacent D 1 2; adjacent D 2 1; negb (adjacent D 0 2); negb (adjacent D 2 0);
    dg_adjacent_ordered d 0 1; negb (dg_adjacent_ordered d 1 0); eqn (length l) 3;
    forallb (λ p : N * list N, if p.1 =? 0 then eqn (length p.2) 0 else bool_decide (p.2 = [p.1 - 1])) l;
    eqn (eg_num_vertices k) (num_vertices (dg_lgraph dk)); eqn (eg_num_edges k) (num_edges (dg_lgraph dk)); eqn (length l') 34; b].
(** degengraph.rs:435-457. *)
Definition rt_dg_consistency : res bool :=
  g ← karate; d ← dg_from_graph (eg_graph g); order ← dg_order d; o ← og_with_ordering (eg_graph g) order;
  test_all (λ u, a ← left_degree (og_lgraph o) u; b ← dg_left_degree d u; l ← neighbours (eg_graph g) u; k ← neighbours (dg_lgraph d) u;
     tests [eqn (eg_degree g u) (degree (dg_lgraph d) u); eqn a b; eqn (right_degree (og_lgraph o) u) (dg_right_degree d u);
       eqn (length l) (length k); eqs (sset l) (sset k)]) (vertices (eg_graph g)).
(** degengraph.rs:459-466. *)
Definition rt_dg_order : res bool :=
  g ← eg_path 20; let order := reverse (range 0 20) in d ← dg_with_ordering (eg_graph g) order; l ← dg_order d; tests [bool_decide (order = l)].
(** degengraph.rs:468-479. *)
Definition rt_dg_cliques : res bool :=
  k ← eg_clique 5; d ← dg_with_ordering (eg_graph k) [0; 1; 2; 3; 4]; a ← count_max_cliques (dg_lgraph d);
  g ← eg_complete_kpartite [5; 5; 5]; d ← dg_from_graph (eg_graph g); b ← count_max_cliques (dg_lgraph d);
  tests [eqn a 1; eqn b 125].
(** degengraph.rs:481-549. *)
Definition rt_sreach_basics : res bool :=
  let h := (eg_add_vertices eg_new (range 0 7)).1 in
  h ← eg_add_edges h [(0, 6); (1, 4); (2, 3); (3, 4); (3, 5); (5, 6)]; d ← dg_with_ordering (eg_graph h.1) (range 0 7);
  h' ← eg_add_edges h.1 [(0, 1); (1, 2); (2, 4); (2, 5); (2, 6)]; d' ← dg_with_ordering (eg_graph h'.1) (range 0 7);
  a ← test_all (λ d, x ← sreach_set (dg_lgraph d) 3 1; y ← sreach_set (dg_lgraph d) 3 2; z ← sreach_set (dg_lgraph d) 3 3;
        tests [bool_decide (x = {[2 := 1%nat]}); bool_decide (y = {[2 := 1%nat; 1 := 2%nat]}); bool_decide (z = {[2 := 1%nat; 1 := 2%nat; 0 := 3%nat]})]) [d; d'];
  let g := (eg_add_vertices eg_new (range 0 101 ++ [999] ++ range 200 301)).1 in
  g ← eg_add_edges g ((λ i, (i, i + 200)) <$> range 0 101); g ← eg_add_edges g.1 ((λ i, (999, i)) <$> range 200 301);
  d ← dg_with_ordering (eg_graph g.1) (range 0 101 ++ [999] ++ range 200 301); S ← sreach_set (dg_lgraph d) 999 2;
  tests [a; eqn (eg_num_edges g.1) 202; eqn (eg_num_vertices g.1) 203; bool_decide (S = list_to_map ((λ i, (i, 2%nat)) <$> range 0 101))].
(** degengraph.rs:551-564, 566-587 and 589-619 with the karate graph in place of Yeast. *)
Definition rt_sreach_consistency : res bool :=
  g ← karate; d ← dg_from_graph (eg_graph g); S ← sreach_sets (dg_lgraph d) 3; order ← dg_order d;
  test_all (λ u, s ← sreach_set (dg_lgraph d) u 3; tests [bool_decide (S !! u = Some s)]) order.
Definition rt_sreach2 : res bool :=
  g ← karate; d ← dg_from_graph (eg_graph g); order ← dg_order d;
  test_all (λ u, l ← left_neighbours (dg_lgraph d) u; a ← rightmost (dg_lgraph d) l;
    match a with None => Ok (bool_decide (l = [])) | Some a => s ← sreach_set (dg_lgraph d) a 2; tests [bool_decide (sset l ⊆ {[a]} ∪ dom s)] end) order.
Definition rt_dg_normalize : res bool :=
  g ← karate; d ← dg_from_graph (eg_graph g); r ← dg_normalize d; let '(m, e) := r in
  let w : gmap N N := list_to_map ((λ p, (p.2, p.1)) <$> map_to_list m) in let D := dg_lgraph d in let E := dg_lgraph e in
  es ← edges D; fs ← edges E; order ← dg_order d;
  a ← test_all (λ p : N * N, u ← unwrap (w !! p.1); v ← unwrap (w !! p.2); Ok (adjacent E u v)) es;
  b ← test_all (λ p : N * N, u ← unwrap (m !! p.1); v ← unwrap (m !! p.2); Ok (adjacent D u v)) fs;
  c ← test_all (λ u, eu ← unwrap (w !! u); x ← dg_left_degree d u; y ← dg_left_degree e eu;
        tests [eqn (degree D u) (degree E eu); eqn x y; eqn (dg_right_degree d u) (dg_right_degree e eu)]) order;
  tests [a; b; c; eqn (length es) 78; eqn (length fs) 78].

(** The function helper_compute_traces (sreach_trace_oracle.rs:411-426). *)
Definition helper_traces (target : list N) (d : degengraph) : res (gmap (list N) nat) :=
  order ← dg_order d;
  fold_res (λ t x, if bool_decide (x ∈ target) then Ok t else
    l ← neighbours (dg_lgraph d) x; is ← fold_res (λ acc u, i ← dg_index_of d u; Ok (acc ++ [(i, u)])) (elements (sset l ∩ sset target)) [];
    let X := (merge_sort key_le is).*2 in Ok (<[X := (default 0 (t !! X) + 1)%nat]> t)) order ∅.
(** sreach_trace_oracle.rs:325-356, with three orders in place of a random one, and 358-382. *)
Definition rt_traces (es : list (N * N)) (vs order : list N) : res bool :=
  let g := (eg_add_vertices eg_new vs).1 in g ← eg_add_edges g es; d ← dg_with_ordering (eg_graph g.1) order; m ← so_for_graph d;
  is ← fold_res (λ acc u, i ← dg_index_of d u; Ok (acc ++ [(i, u)])) [1; 2; 3] []; let target := (merge_sort key_le is).*2 in
  a ← helper_traces target d; b ← so_compute_traces m target d; Ok (bool_decide (filter (λ p : list N * nat, p.2 ≠ 0%nat) b = a)).
Definition rt_sreach_traces : res bool :=
  test_all (rt_traces [(1, 4); (2, 4); (3, 4); (1, 5); (2, 5); (3, 5); (1, 6); (2, 6); (2, 7); (3, 7); (1, 8); (3, 8); (1, 9); (2, 10); (3, 11)] (range 1 12))
    [range 1 12; reverse (range 1 12); [4; 1; 9; 2; 10; 3; 5; 11; 6; 8; 7]].
Definition rt_sreach_traces_2 : res bool := rt_traces [(1, 2); (2, 3)] [1; 2; 3] [1; 2; 3].

(** algorithms/graph.rs:312-362; the edges of the karate graph are added in the order of the iterator, not shuffled. *)
Definition rt_bipartite : res bool :=
  let bip g := w ← is_bipartite (eg_graph g); Ok (match w with Bipartition _ _ => true | _ => false end) in
  a ← of_edges [(0, 1)]; a ← bip a; b ← of_edges [(0, 1); (1, 2)]; b ← bip b; c ← of_edges [(0, 1); (1, 2); (0, 2)]; c ← bip c;
  g ← eg_cycle 50; d ← is_bipartite (eg_graph g); g ← eg_cycle 51; e ← is_bipartite (eg_graph g);
  k ← karate; es ← edges (eg_graph k); g ← of_edges es; w ← is_bipartite (eg_graph g);
  tests [a; b; negb c; match d with Bipartition l r => eqn (size l) (size r) | _ => false end; match e with OddCycle l => eqn (length l) 51 | _ => false end;
    match w with OddCycle l => forallb (λ p : N * N, eg_adjacent g p.1 p.2) (zip l (tail l)) &&
        match head l, last l with Some x, Some y => eg_adjacent g x y | _, _ => false end | _ => false end].

(** algorithms/lineargraph.rs:684-701. *)
Definition rt_colouring : res bool :=
  g ← eg_clique 5; o ← og_by_degeneracy (eg_graph g); a ← colour_greedy (og_lgraph o);
  o ← og_by_degeneracy (eg_graph (eg_add_vertices eg_new [1; 2; 3; 4; 5]).1); b ← colour_greedy (og_lgraph o);
  tests [eqn (size (sset (vc_colours a))) 5; eqn (size (sset (vc_colours b))) 1].
(** algorithms/lineargraph.rs:703-713, the karate part. *)
Definition rt_domset : res bool :=
  g ← karate; o ← og_by_degeneracy (eg_graph g);
  test_all (λ r, d ← domset (og_lgraph o) r true; let '(D, _, C) := d in C ← unwrap C; s ← vm_majority_set C; s ← unwrap s;
    X ← r_neighbourhood (eg_graph g) (elements D) r; tests [eqn (size X) (eg_num_vertices g)]) [1; 2; 3; 4]%nat.
(** algorithms/lineargraph.rs:736-763 with a grid of 6 x 6 vertices in place of 10 x 10. *)
Definition rt_domset_partial : res bool :=
  g ← eg_grid 6 6; o ← og_by_degeneracy (eg_graph g); d ← domset_with_target (og_lgraph o) 2 true (range 0 18);
  let '(D, _, C) := d in C ← unwrap C; s ← vm_majority_set C; s ← unwrap s; X ← r_neighbourhood (eg_graph g) (elements D) 2;
  h ← df_orient (eg_graph g); h ← df_augment h 4 1;
  b ← test_all (λ p : N * N, d ← df_small_distance h p.1 p.2; Ok (match d with Some d => Nat.leb 5 d | None => true end)) (combinations2 (elements s.1));
  tests [bool_decide (sset (range 0 18) ⊆ X); b].
(** algorithms/lineargraph.rs:790-820. *)
Definition rt_small_distance_sets : res bool :=
  g ← eg_grid 5 6; o ← og_by_degeneracy (eg_graph g); W ← wreach_sets (og_lgraph o) 13;
  a ← test_all (λ p : N * nat, d ← small_distance W 12 0 p.1; Ok (bool_decide (d = Some p.2))) [(0, 0%nat); (1, 1%nat); (2, 2%nat); (3, 3%nat); (4, 4%nat); (5, 5%nat)];
  b ← small_distance_sets W 12 (sset [0; 1; 2; 3; 4; 5]) (sset [24; 25; 26; 27; 28; 29]); c ← small_distance_sets W 12 (sset [24]) (sset [15; 10; 5]);
  tests [a; bool_decide (b = Some 4%nat); bool_decide (c = Some 5%nat)].
(** algorithms/lineargraph.rs:766-787 and 822-844 with a grid of 5 x 5 vertices in place of 20 x 20 and 30 x 30. *)
Definition rt_small_distance : res bool :=
  g ← eg_grid 5 5; o ← og_by_degeneracy (eg_graph g); W ← wreach_sets (og_lgraph o) 8; h ← df_orient (eg_graph g); h ← df_augment h 5 1;
  test_all (λ p : N * N, a ← df_small_distance h p.1 p.2; b ← small_distance W 4 p.1 p.2;
    Ok (match a, b with Some a, Some b => eqn a b | _, _ => true end)) (combinations2 (vertices (eg_graph g))).
Definition rt_scattered_colouring : res bool :=
  g ← eg_grid 5 5; o ← og_by_degeneracy (eg_graph g);
  cs ← scattered_colouring 1000 (og_lgraph o) 4 (filter (λ x, x mod 3 = 0) (vertices (eg_graph g)));
  h ← df_orient (eg_graph g); h ← df_augment h 8 1;
  test_all (λ X : gset N, test_all (λ p : N * N, d ← df_small_distance h p.1 p.2; Ok (match d with Some d => Nat.leb 4 d | None => true end)) (combinations2 (elements X))) cs.

(** reachgraph.rs:366-375. *)
Definition rt_rg_consistency : res bool :=
  g ← karate; o ← og_by_degeneracy (eg_graph g); w ← og_to_wreach_graph 3 o;
  test_all (λ u, d ← rg_degree 3 w u; tests [eqn (eg_degree g u) d]) (vertices (eg_graph g)).
(** reachgraph.rs:377-385. *)
Definition rt_rg_order : res bool :=
  g ← eg_path 20; let order := reverse (range 0 20) in o ← og_with_ordering (eg_graph g) order; w ← og_to_wreach_graph 3 o;
  l ← rg_order w; tests [bool_decide (order = l)].
(** reachgraph.rs:387-407. *)
Definition rt_rg_cliques : res bool :=
  k ← eg_clique 5; o ← og_with_ordering (eg_graph k) [0; 1; 2; 3; 4]; w ← og_to_wreach_graph 3 o; a ← count_max_cliques (rg_lgraph 3 w);
  g ← eg_complete_kpartite [5; 5; 5]; o ← og_by_degeneracy (eg_graph g); w ← og_to_wreach_graph 3 o; b ← count_max_cliques (rg_lgraph 3 w);
  o ← og_with_ordering (eg_graph (eg_independent 5)) [0; 1; 2; 3; 4]; w ← og_to_wreach_graph 3 o; c ← count_max_cliques (rg_lgraph 3 w);
  tests [eqn a 1; eqn b 125; eqn c 5].
(** README.md:15-41 (the example of the crate's front page). *)
Definition rt_doc_basic : res bool :=
  let g := (eg_add_vertex eg_new 0).1 in r ← eg_add_edge g 1 2; r ← eg_add_edge r.1 1 1; let g := r.1 in
  tests [eg_contains g 0; negb (eg_contains g 3); eg_adjacent g 1 1; eg_adjacent g 1 2; negb (eg_adjacent g 0 2);
    eqn (eg_degree g 0) 0; eqn (eg_degree g 1) 3; eqn (eg_degree g 2) 1].
(** editgraph.rs:8-38 (documentation).  The pairs are compared as sets, with their orientation. *)
Definition rt_doc_named : res bool :=
  test_all (λ t : res editgraph * list (N * N), g ← t.1; es ← edges (eg_graph g);
      Ok (bool_decide ((list_to_set es : gset (N * N)) = list_to_set t.2)))
    [(eg_path 5, [(0, 1); (1, 2); (2, 3); (3, 4)]); (eg_cycle 5, [(0, 1); (1, 2); (2, 3); (3, 4); (0, 4)]);
     (eg_matching 4, [(0, 4); (1, 5); (2, 6); (3, 7)]); (eg_clique 4, [(0, 1); (0, 2); (0, 3); (1, 2); (1, 3); (2, 3)]);
     (eg_biclique 2 3, [(0, 2); (0, 3); (0, 4); (1, 2); (1, 3); (1, 4)]);
     (eg_complete_kpartite [1; 2; 2], [(0, 1); (0, 2); (0, 3); (0, 4); (1, 3); (1, 4); (2, 3); (2, 4)])].
(** editgraph.rs:45-57 (documentation); the printed numbers are 4 and 3. *)
Definition rt_doc_bulk : res bool :=
  r ← eg_add_edges (eg_add_vertices eg_new [0; 1; 2; 3]).1 [(0, 1); (1, 2); (2, 3)];
  tests [eqn (eg_num_vertices r.1) 4; eqn (eg_num_edges r.1) 3].
(** editgraph.rs:63-90 (documentation). *)
Definition rt_doc_contract : res bool :=
  p ← eg_path 4; p ← eg_contract_pair p 1 2; l ← neighbours (eg_graph p) 1;
  m ← eg_matching 3; g ← eg_contract_into m 0 [1; 2]; k ← neighbours (eg_graph g) 0; o ← eg_contract m [0; 1; 2];
  tests [eg_contains p 1; negb (eg_contains p 2); eqs (sset l) (sset [0; 3]);
    eg_contains g 0; negb (eg_contains g 1); negb (eg_contains g 2); eqs (sset k) (sset [3; 4; 5]); eg_eq g o.1].
(** algorithms/mod.rs:4-18 (documentation). *)
Definition rt_doc_bipartite : res bool :=
  g ← eg_biclique 2 4; w ← is_bipartite (eg_graph g); r ← eg_add_edge g 0 1; w' ← is_bipartite (eg_graph r.1);
  tests [match w with Bipartition _ _ => true | _ => false end; match w' with OddCycle _ => true | _ => false end].
(** io.rs:140-156 and README.md:48-69 (documentation): the file of the lines "0 1", "0 2", "0 3"; what is printed is the star of 0. *)
Definition rt_doc_load : res bool :=
  r ← eg_from_buf (Reader [48; 32; 49; 10; 48; 32; 50; 10; 48; 32; 51; 10] true);
  match r with
  | IoOk g => es ← edges (eg_graph g); tests [eqs (sset (vertices (eg_graph g))) (sset [0; 1; 2; 3]);
      bool_decide ((list_to_set es : gset (N * N)) = list_to_set [(0, 1); (0, 2); (0, 3)])]
  | IoErr _ => Ok false
  end.

(** All tests of this file (not code). *)
Definition all_tests : list (res bool) :=
  [rt_edge_cases; rt_components; rt_disj_union; rt_neighbourhoods; rt_equality; rt_isolates_and_loops;
   rt_N_iteration; rt_edge_iteration; rt_basic_operations; rt_contract_pair; rt_contract; rt_basic_graphs;
   rt_read_graph; rt_write_graph; rt_read_write_set; rt_read_write_vec; rt_invert; rt_merge;
   rt_intersect; rt_subdivide; rt_cartesian_product; rt_lexicographic_product; rt_compare; rt_add_remove_arcs;
   rt_remove_vertex; rt_di_neighbourhoods; rt_arcs; rt_dtf_iteration; rt_edge_subgraph; rt_dtf_domset;
   rt_dtf_distance; rt_ordering; rt_vertex_map; rt_vertex_colouring; rt_edge_iterator; rt_N_iterator;
   rt_mixed_iterator; rt_wreach_iterator; rt_og_order; rt_wreach_graph; rt_og_consistency; rt_og_sreach;
   rt_og_cliques; rt_dg_basics; rt_dg_consistency; rt_dg_order; rt_dg_cliques; rt_sreach_basics;
   rt_sreach_consistency; rt_sreach2; rt_dg_normalize; rt_sreach_traces; rt_sreach_traces_2; rt_bipartite;
   rt_colouring; rt_domset; rt_domset_partial; rt_small_distance_sets; rt_small_distance; rt_scattered_colouring;
   rt_rg_consistency; rt_rg_order; rt_rg_cliques;
   rt_doc_basic; rt_doc_named; rt_doc_bulk; rt_doc_contract; rt_doc_bipartite; rt_doc_load].
End tests.

Example tests_pass_std : @all_tests std_iter = replicate 69 (Ok true).
Proof. vm_compute. reflexivity. Qed.
Example tests_pass_rev : @all_tests rev_iter = replicate 69 (Ok true).
Proof. vm_compute. reflexivity. Qed.
