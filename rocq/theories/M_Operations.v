(** Model of operations.rs and compare.rs. *)
From Verif Require Import Base M_Graph M_Iterators M_EditGraph.

(** Models [Itertools::combinations(2)] as used at operations.rs:23, lineargraph.rs:346 and 459:
    all pairs of positions i < j of the sequence. *)
Fixpoint combinations2 {A} (l : list A) : list (A * A) :=
  match l with
  | [] => []
  | x :: l => (pair x <$> l) ++ combinations2 l
  end.

Section with_iter.
Context `{HashIter}.

(** Models [invert] (operations.rs:20-31). *)
Definition invert (G : graph) : res editgraph :=
  let h := (eg_add_vertices eg_new (vertices G)).1 in
  fold_res (λ h p, if negb (adjacent G p.1 p.2)
                   then r ← eg_add_edge h p.1 p.2; Ok r.1 else Ok h)
    (combinations2 (vertices G)) h.

(** Models [merge] (operations.rs:33-40). *)
Definition merge_graphs (G H : graph) : res editgraph :=
  let h := (eg_add_vertices eg_new (vertices G)).1 in
  let h := (eg_add_vertices h (vertices H)).1 in
  es ← edges G;
  r ← eg_add_edges h es;
  es' ← edges H;
  r' ← eg_add_edges r.1 es';
  Ok r'.1.

(** Models [intersect] (operations.rs:42-47). *)
Definition intersect_graphs (G H : graph) : res editgraph :=
  let h := (eg_add_vertices eg_new (filter (λ u, contains H u = true) (vertices G))).1 in
  es ← edges G;
  r ← eg_add_edges h (filter (λ e : N * N, adjacent H e.1 e.2 = true) es);
  Ok r.1.

(** Models the inner loop of [subdivide] (operations.rs:59-65): the inner vertices [ss] of
    one edge ending in [v]. *)
Fixpoint subdivide_edge (G : graph) (last v : N) (ss : list N) (h : editgraph) : res editgraph :=
  match ss with
  | [] => r ← eg_add_edge h last v; Ok r.1
  | s :: ss =>
      _ ← assert_res (negb (contains G s));
      r ← eg_add_edge h last s;
      subdivide_edge G s v ss r.1
  end.

(** Models [subdivide] (operations.rs:49-70); label arithmetic wraps, and
    [debug_assert!] is kept as an assertion. *)
Definition subdivide (G : graph) (times : N) : res editgraph :=
  let s := foldl (λ s u, ((eg_add_vertex s.1 u).1, N.max s.2 u)) (eg_new, 0%N) (vertices G) in
  let free_id := u32 (s.2 + 1) in
  es ← edges G;
  r ← fold_res (λ r e,
        h ← subdivide_edge G e.1 e.2 (range r.2 (u32 (r.2 + times))) r.1;
        Ok (h, u32 (r.2 + times)))
      es (s.1, free_id);
  Ok r.1.

(** Models the loops filling [map] and [inverse] (operations.rs:74-83, 117-126);
    [free_id += 1] wraps. *)
Definition product_ids (G H : graph) : gmap (N * N) N * gmap N (N * N) * N :=
  foldl (λ s u,
    foldl (λ s v, (<[(u, v) := s.2]> s.1.1, <[s.2 := (u, v)]> s.1.2, u32 (s.2 + 1)))
      s (vertices H))
    (∅, ∅, 0%N) (vertices G).

(** Models [cartesian_product] (operations.rs:115-145). *)
Definition cartesian_product (G H : graph) : res (editgraph * gmap N (N * N)) :=
  let ids := product_ids G H in
  h ← fold_res (λ h (kx : N * N * N),
        let '(u, v, x) := kx in
        Nv ← neighbours H v;
        h ← fold_res (λ h w, y ← unwrap (ids.1.1 !! (u, w)); r ← eg_add_edge h x y; Ok r.1) Nv h;
        Nu ← neighbours G u;
        fold_res (λ h w, y ← unwrap (ids.1.1 !! (w, v)); r ← eg_add_edge h x y; Ok r.1) Nu h)
      (map_iter 0 ids.1.1) eg_new;
  Ok (h, ids.1.2).

(** Models [lexicographic_product] (operations.rs:72-113). *)
Definition lexicographic_product (G H : graph) : res (editgraph * gmap N (N * N)) :=
  let ids := product_ids G H in
  h ← fold_res (λ h (kx : N * N * N),
        let '(u, v, x) := kx in
        Nu ← neighbours G u;
        h ← fold_res (λ h w, y ← unwrap (ids.1.1 !! (w, v)); r ← eg_add_edge h x y; Ok r.1) Nu h;
        Nv ← neighbours H v;
        fold_res (λ h w,
          fold_res (λ h uu, y ← unwrap (ids.1.1 !! (uu, w)); r ← eg_add_edge h x y; Ok r.1)
            (vertices G) h) Nv h)
      (map_iter 0 ids.1.1) eg_new;
  Ok (h, ids.1.2).

End with_iter.

(** Models [enum SubgraphRel] (compare.rs:6-11). *)
Inductive subgraph_rel := RelSub | RelEq | RelSup | RelIncomp.

(** Models [compare_subgraph] (compare.rs:18-30).  Simplified: [all] is evaluated on the whole
    list of edges instead of stopping at the first failure. *)
Definition compare_subgraph (G H : graph) : res subgraph_rel :=
  es ← edges G;
  let is_sub := forallb (contains H) (vertices G) && forallb (λ e : N * N, adjacent H e.1 e.2) es in
  es' ← edges H;
  let is_super := forallb (contains G) (vertices H) && forallb (λ e : N * N, adjacent G e.1 e.2) es' in
  Ok match is_sub, is_super with
     | true, true => RelEq
     | true, false => RelSub
     | false, true => RelSup
     | false, false => RelIncomp
     end.
