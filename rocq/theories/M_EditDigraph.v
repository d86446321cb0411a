(** Model of editdigraph.rs and of [trait Digraph], [trait MutableDigraph]
    (graph.rs:474-632) and [ArcIterator] (iterators.rs:257-319). *)
From Verif Require Import Base Spec M_Graph M_Iterators M_EditGraph.

(** Models the methods of [trait Digraph] (graph.rs:474-515) on top of [trait Graph].
    Simplified: immutable record of method results, as for [graph]. *)
Record digraph := Digraph {
  dg : graph;
  has_arc : N → N → bool;
  in_degree : N → res nat;
  out_degree : N → res nat;
  in_neighbours : N → res (list N);
  out_neighbours : N → res (list N);
}.

(** Models [Digraph::in_degrees] (graph.rs:485-491). *)
Definition in_degrees (D : digraph) : res (gmap N nat) :=
  fold_res (λ m v, d ← in_degree D v; Ok (<[v := d]> m)) (vertices (dg D)) ∅.
(** Models [Digraph::out_degrees] (graph.rs:494-500). *)
Definition out_degrees (D : digraph) : res (gmap N nat) :=
  fold_res (λ m v, d ← out_degree D v; Ok (<[v := d]> m)) (vertices (dg D)) ∅.

(** Models [struct EditDigraph] (editdigraph.rs:11-17). *)
Record editdigraph := EditDigraph {
  ed_in : gmap N (gset N);
  ed_out : gmap N (gset N);
  ed_outd : gmap N nat;
  ed_ind : gmap N nat;
  ed_m : nat;
}.

(** Models [new] and [with_capacity] (editdigraph.rs:138-155). *)
Definition ed_new : editdigraph := EditDigraph ∅ ∅ ∅ ∅ 0.

(** Models [contains] (editdigraph.rs:72-74). *)
Definition ed_contains (g : editdigraph) (u : N) : bool :=
  match ed_out g !! u with Some _ => true | None => false end.
(** Models [num_vertices] (editdigraph.rs:53-55). *)
Definition ed_num_vertices (g : editdigraph) : nat := size (ed_out g).
(** Models [num_edges] (editdigraph.rs:57-59). *)
Definition ed_num_edges (g : editdigraph) : nat := ed_m g.
(** Models [has_arc] (editdigraph.rs:95-100). *)
Definition ed_has_arc (g : editdigraph) (u v : N) : bool :=
  match ed_out g !! u with Some N => bool_decide (v ∈ N) | None => false end.
(** Models [adjacent] (editdigraph.rs:61-63), with the repeated argument order. *)
Definition ed_adjacent (g : editdigraph) (u v : N) : bool :=
  ed_has_arc g u v || ed_has_arc g u v.
(** Models [degree] (editdigraph.rs:65-67). *)
Definition ed_degree (g : editdigraph) (u : N) : nat :=
  default 0 (ed_ind g !! u) + default 0 (ed_outd g !! u).
(** Models [in_degree] (editdigraph.rs:117-119). *)
Definition ed_in_degree (g : editdigraph) (u : N) : res nat := unwrap (ed_ind g !! u).
(** Models [out_degree] (editdigraph.rs:122-124). *)
Definition ed_out_degree (g : editdigraph) (u : N) : res nat := unwrap (ed_outd g !! u).

(** Models [PartialEq::eq] (editdigraph.rs:19-32). *)
Definition ed_eq (g h : editdigraph) : bool :=
  if negb (ed_num_vertices g =? ed_num_vertices h) then false
  else if negb (ed_num_edges g =? ed_num_edges h) then false
  else if negb (bool_decide (ed_outd g = ed_outd h)) then false
  else bool_decide (ed_out g = ed_out h).

(** Models [add_vertex] (editdigraph.rs:157-167). *)
Definition ed_add_vertex (g : editdigraph) (u : N) : editdigraph * bool :=
  match ed_out g !! u with
  | None => (EditDigraph (<[u := ∅]> (ed_in g)) (<[u := ∅]> (ed_out g))
               (<[u := 0]> (ed_outd g)) (<[u := 0]> (ed_ind g)) (ed_m g), true)
  | Some _ => (g, false)
  end.

(** Models [add_arc] (editdigraph.rs:169-183). *)
Definition ed_add_arc (g : editdigraph) (u v : N) : res (editdigraph * bool) :=
  let g := (ed_add_vertex g u).1 in
  let g := (ed_add_vertex g v).1 in
  if negb (ed_has_arc g u v) then
    Nu ← unwrap (ed_out g !! u);
    Nv ← unwrap (ed_in g !! v);
    du ← unwrap (ed_outd g !! u);
    dv ← unwrap (ed_ind g !! v);
    Ok (EditDigraph (<[v := {[u]} ∪ Nv]> (ed_in g)) (<[u := {[v]} ∪ Nu]> (ed_out g))
          (<[u := du + 1]> (ed_outd g)) (<[v := dv + 1]> (ed_ind g)) (ed_m g + 1), true)
  else Ok (g, false).

(** Models [remove_arc] (editdigraph.rs:185-196). *)
Definition ed_remove_arc (g : editdigraph) (u v : N) : res (editdigraph * bool) :=
  if ed_has_arc g u v then
    Nu ← unwrap (ed_out g !! u);
    Nv ← unwrap (ed_in g !! v);
    du ← unwrap (ed_outd g !! u);
    du' ← sub_checked du 1;
    dv ← unwrap (ed_ind g !! v);
    dv' ← sub_checked dv 1;
    m' ← sub_checked (ed_m g) 1;
    Ok (EditDigraph (<[v := Nv ∖ {[u]}]> (ed_in g)) (<[u := Nu ∖ {[v]}]> (ed_out g))
          (<[u := du']> (ed_outd g)) (<[v := dv']> (ed_ind g)) m', true)
  else Ok (g, false).

Section with_iter.
Context `{HashIter}.

(** Models [remove_vertex] (editdigraph.rs:198-218). *)
Definition ed_remove_vertex (g : editdigraph) (u : N) : res (editdigraph * bool) :=
  if negb (ed_contains g u) then Ok (g, false)
  else
    Nout ← unwrap (ed_out g !! u);
    g ← fold_res (λ g v, r ← ed_remove_arc g u v; Ok r.1) (hash_iter 0 Nout) g;
    Nin ← unwrap (ed_in g !! u);
    g ← fold_res (λ g v, r ← ed_remove_arc g v u; Ok r.1) (hash_iter 1 Nin) g;
    Ok (EditDigraph (delete u (ed_in g)) (delete u (ed_out g))
          (delete u (ed_outd g)) (delete u (ed_ind g)) (ed_m g), true).

(** Models [in_neighbours] (editdigraph.rs:109-114). *)
Definition ed_in_neighbours (g : editdigraph) (u : N) : res (list N) :=
  match ed_in g !! u with Some N => Ok (hash_iter 1 N) | None => Panic end.
(** Models [out_neighbours] (editdigraph.rs:102-107). *)
Definition ed_out_neighbours (g : editdigraph) (u : N) : res (list N) :=
  match ed_out g !! u with Some N => Ok (hash_iter 2 N) | None => Panic end.

(** Models [neighbours] (editdigraph.rs:82-91). *)
Definition ed_neighbours (g : editdigraph) (u : N) : res (list N) :=
  if negb (ed_contains g u) then Panic
  else Nin ← unwrap (ed_in g !! u);
       Nout ← unwrap (ed_out g !! u);
       Ok (hash_iter 1 Nin ++ hash_iter 2 Nout).

(** The implementation of [trait Graph] for EditDigraph (editdigraph.rs:49-92). *)
Definition ed_graph (g : editdigraph) : graph := {|
  num_vertices := ed_num_vertices g;
  num_edges := ed_num_edges g;
  contains := ed_contains g;
  adjacent := ed_adjacent g;
  degree := ed_degree g;
  vertices := hash_iter 0 (dom (ed_out g));
  neighbours := ed_neighbours g;
|}.

(** The implementation of [trait Digraph] for EditDigraph (editdigraph.rs:94-125). *)
Definition ed_digraph (g : editdigraph) : digraph := {|
  dg := ed_graph g;
  has_arc := ed_has_arc g;
  in_degree := ed_in_degree g;
  out_degree := ed_out_degree g;
  in_neighbours := ed_in_neighbours g;
  out_neighbours := ed_out_neighbours g;
|}.

(** Models [Digraph::out_neighbourhood] (graph.rs:515-527). *)
Definition out_neighbourhood (D : digraph) (X : list N) : res (gset N) :=
  let centers := collect_set X in
  res ← fold_res (λ acc v, N ← out_neighbours D v; Ok (acc ∪ list_to_set N))
          (hash_iter 0 centers) (∅ : gset N);
  Ok (filter (λ u, u ∉ centers) res).

(** Models [Digraph::in_neighbourhood] (graph.rs:531-543). *)
Definition in_neighbourhood (D : digraph) (X : list N) : res (gset N) :=
  let centers := collect_set X in
  res ← fold_res (λ acc v, N ← in_neighbours D v; Ok (acc ∪ list_to_set N))
          (hash_iter 0 centers) (∅ : gset N);
  Ok (filter (λ u, u ∉ centers) res).

(** Models [Clone::clone] (editdigraph.rs:35-47). *)
Definition ed_clone (g : editdigraph) : res editdigraph :=
  fold_res (λ h v,
    let h := (ed_add_vertex h v).1 in
    Nv ← ed_out_neighbours g v;
    fold_res (λ h u, r ← ed_add_arc h v u; Ok r.1) Nv h)
  (vertices (ed_graph g)) ed_new.

(** Models [from_iter] (editdigraph.rs:127-135). *)
Definition ed_from_iter (es : list (N * N)) : res editdigraph :=
  fold_res (λ h e, r ← ed_add_arc h e.1 e.2; Ok r.1) es ed_new.

(** Models [MutableDigraph::add_vertices] (graph.rs:577-586). *)
Definition ed_add_vertices (g : editdigraph) (vs : list N) : editdigraph * nat :=
  foldl (λ s v, let r := ed_add_vertex s.1 v in (r.1, if r.2 : bool then s.2 + 1 else s.2)) (g, 0) vs.

(** Models [MutableDigraph::add_arcs] (graph.rs:591-601). *)
Definition ed_add_arcs (g : editdigraph) (es : list (N * N)) : res (editdigraph * nat) :=
  fold_res (λ s e, r ← ed_add_arc s.1 e.1 e.2; Ok (r.1, if r.2 : bool then s.2 + 1 else s.2)) es (g, 0).

(** Models [MutableDigraph::remove_loops] (graph.rs:606-619). *)
Definition ed_remove_loops (g : editdigraph) : res (editdigraph * nat) :=
  let cands := filter (λ u, ed_adjacent g u u = true) (vertices (ed_graph g)) in
  g ← fold_res (λ h u, r ← ed_remove_arc h u u; Ok r.1) cands g;
  Ok (g, length cands).

(** Models [MutableDigraph::remove_isolates] (graph.rs:624-632). *)
Definition ed_remove_isolates (g : editdigraph) : res (editdigraph * nat) :=
  let cands := filter (λ u, ed_degree g u = 0) (vertices (ed_graph g)) in
  g ← fold_res (λ h u, r ← ed_remove_vertex h u; Ok r.1) cands g;
  Ok (g, length cands).

(** Editing calls as data (specification vocabulary is in S_Digraph.v); models one
    call of [add_vertex], [add_arc], [remove_arc], [remove_vertex] (editdigraph.rs:157-218). *)
Definition ed_step (g : editdigraph) (o : edit_op) : res (editdigraph * bool) :=
  match o with
  | AddVertex u => Ok (ed_add_vertex g u)
  | AddEdge u v => ed_add_arc g u v
  | RemoveEdge u v => ed_remove_arc g u v
  | RemoveVertex u => ed_remove_vertex g u
  end.

(** A sequence of editing calls (editdigraph.rs:157-218). *)
Fixpoint ed_run (g : editdigraph) (os : list edit_op) : res (editdigraph * list bool) :=
  match os with
  | [] => Ok (g, [])
  | o :: os => r ← ed_step g o; r' ← ed_run r.1 os; Ok (r'.1, r.2 :: r'.2)
  end.

(** ** Generators *)
(** Models [path] (editdigraph.rs:224-232); [n-1] underflows for [n = 0]. *)
Definition ed_path (n : N) : res editdigraph :=
  if (n =? 0)%N then Panic
  else fold_res (λ h u, r ← ed_add_arc h u (u + 1)%N; Ok r.1) (range 0 (n - 1)) ed_new.
(** Models [cycle] (editdigraph.rs:235-243). *)
Definition ed_cycle (n : N) : res editdigraph :=
  fold_res (λ h u, r ← ed_add_arc h u ((u + 1) mod n)%N; Ok r.1) (range 0 n) ed_new.
(** Models [matching] (editdigraph.rs:246-254). *)
Definition ed_matching (n : N) : res editdigraph :=
  fold_res (λ h u, r ← ed_add_arc h u (u32 (u + n)); Ok r.1) (range 0 n) ed_new.
(** Models [clique] (editdigraph.rs:263-272). *)
Definition ed_clique (n : N) : res editdigraph :=
  fold_res (λ h u, fold_res (λ h v, r ← ed_add_arc h u v; Ok r.1) (range (u + 1) n) h)
    (range 0 n) ed_new.
(** Models [independent] (editdigraph.rs:275-282). *)
Definition ed_independent (n : N) : editdigraph :=
  foldl (λ h u, (ed_add_vertex h u).1) ed_new (range 0 n).
(** Models [biclique] (editdigraph.rs:286-295). *)
Definition ed_biclique (s t : N) : res editdigraph :=
  fold_res (λ h u, fold_res (λ h v, r ← ed_add_arc h u v; Ok r.1) (range s (u32 (s + t))) h)
    (range 0 s) ed_new.
(** Models [star] (editdigraph.rs:257-259). *)
Definition ed_star (n : N) : res editdigraph := ed_biclique 1 n.
(** Models [grid] (editdigraph.rs:299-333). *)
Definition ed_grid (s t : N) : res editdigraph :=
  if ((s =? 0) || (t =? 0))%N then Ok ed_new
  else
    h ← fold_res (λ h y,
          h ← fold_res (λ h x,
                let u := u32 (y * t + x) in
                r ← ed_add_arc h u (u32 (u + 1));
                r' ← ed_add_arc r.1 u (u32 (u + t));
                Ok r'.1) (range 0 (t - 1)) h;
          let u := u32 (y * t + t - 1) in
          r ← ed_add_arc h u (u32 (u + t));
          Ok r.1) (range 0 (s - 1)) ed_new;
    fold_res (λ h x,
        let u := u32 ((s - 1) * t + x) in
        r ← ed_add_arc h u (u32 (u + 1));
        Ok r.1) (range 0 (t - 1)) h.

(** Models [disj_union] (editdigraph.rs:337-349): iterates the undirected [edges()]. *)
Definition ed_disj_union (g : editdigraph) (G : graph) : res editdigraph :=
  let offset : N := match max_opt (vertices (ed_graph g)) with
                    | Some x => u32 (x + 1) | None => 0%N end in
  let h := (ed_add_vertices ed_new (vertices (ed_graph g))).1 in
  es ← edges (ed_graph g);
  r ← ed_add_arcs h es;
  let h := (ed_add_vertices r.1 ((λ v, u32 (v + offset)) <$> vertices G)).1 in
  es' ← edges G;
  r' ← ed_add_arcs h ((λ e : N * N, (u32 (e.1 + offset), u32 (e.2 + offset))) <$> es');
  Ok r'.1.

(** Models [disj_unions] (editdigraph.rs:352-358). *)
Definition ed_disj_unions (Gs : list graph) : res editdigraph :=
  fold_res ed_disj_union Gs ed_new.

(** Models [normalize] (editdigraph.rs:367-385). *)
Definition ed_normalize (g : editdigraph) : res (editdigraph * gmap N N) :=
  let order := merge_sort N.le (vertices (ed_graph g)) in
  let id2vex : gmap N N := collect_map (imap (λ i v, (N.of_nat i, v)) order) in
  let vex2id : gmap N N := collect_map ((λ kv, (kv.2, kv.1)) <$> map_iter 0 id2vex) in
  h ← fold_res (λ h u, i ← unwrap (vex2id !! u); Ok (ed_add_vertex h i).1)
        (vertices (ed_graph g)) ed_new;
  es ← edges (ed_graph g);
  h ← fold_res (λ h e, i ← unwrap (vex2id !! e.1); j ← unwrap (vex2id !! e.2);
                       r ← ed_add_arc h i j; Ok r.1) es h;
  Ok (h, id2vex).

End with_iter.

(** ** ArcIterator *)
(** Models the struct [ArcIterator] (iterators.rs:258-262). *)
Record arc_it := ArcIt { ai_vs : list N; ai_cur : option N; ai_it : option (list N) }.

(** Models [DiNeighIterator::next] for out-neighbourhoods (iterators.rs:45-112). *)
Definition out_neigh_next (D : digraph) (vs : list N) : res (option (N * list N) * list N) :=
  match vs with
  | [] => Ok (None, [])
  | v :: vs => N ← out_neighbours D v; Ok (Some (v, N), vs)
  end.

(** Models [ArcIterator::advance] (iterators.rs:275-282). *)
Definition ai_advance (D : digraph) (s : arc_it) : res arc_it :=
  r ← out_neigh_next D (ai_vs s);
  match r with
  | (Some (v, it), vs) => Ok (ArcIt vs (Some v) (Some it))
  | (None, vs) => Ok (ArcIt vs (ai_cur s) None)
  end.

(** Models [ArcIterator::new] / [ArcIterable::arcs] (iterators.rs:265-273, 315-319). *)
Definition ai_new (D : digraph) : res arc_it :=
  ai_advance D (ArcIt (vertices (dg D)) None None).

(** The [while] loop of [ArcIterator::next] (iterators.rs:289-302), by recursion on the
    vertices still to come. *)
Fixpoint ai_loop (D : digraph) (v : N) (it : list N) (vs : list N)
    : res (option (N * N) * arc_it) :=
  match it with
  | u :: it' => Ok (Some (v, u), ArcIt vs (Some v) (Some it'))
  | [] =>
      match vs with
      | [] => Ok (None, ArcIt [] (Some v) None)
      | v' :: vs' => it' ← out_neighbours D v'; ai_loop D v' it' vs'
      end
  end.

(** Models [ArcIterator::next] (iterators.rs:288-305). *)
Definition ai_next (D : digraph) (s : arc_it) : res (option (N * N) * arc_it) :=
  match ai_it s with
  | None => Ok (None, s)
  | Some it => v ← unwrap (ai_cur s); ai_loop D v it (ai_vs s)
  end.

(** The items of [arcs()] as a list (iterators.rs:258-319). *)
Definition arcs (D : digraph) : res (list (N * N)) :=
  ls ← mapM (M:=res) (λ v, Nv ← out_neighbours D v; Ok (pair v <$> (Nv : list N))) (vertices (dg D));
  Ok (concat ls).
