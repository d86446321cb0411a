(** Model of editgraph.rs, of [trait MutableGraph] (graph.rs:382-469) and of
    [Graph::subgraph] (graph.rs:365-378). *)
From Verif Require Import Base Spec M_Graph M_Iterators.

(** Models [struct EditGraph] (editgraph.rs:102-106). *)
Record editgraph := EditGraph {
  eg_adj : gmap N (gset N);
  eg_degs : gmap N nat;
  eg_m : nat;
}.

(** Models [EditGraph::new] (editgraph.rs:193-197) and [with_capacity]
    (editgraph.rs:199-205; the capacity hint is not modelled). *)
Definition eg_new : editgraph := EditGraph ∅ ∅ 0.

(** Models [contains] (editgraph.rs:164-166). *)
Definition eg_contains (g : editgraph) (u : N) : bool :=
  match eg_adj g !! u with Some _ => true | None => false end.

(** Models [adjacent] (editgraph.rs:150-155). *)
Definition eg_adjacent (g : editgraph) (u v : N) : bool :=
  match eg_adj g !! u with
  | Some N => bool_decide (v ∈ N)
  | None => false
  end.

(** Models [degree] (editgraph.rs:157-159). *)
Definition eg_degree (g : editgraph) (u : N) : nat := default 0 (eg_degs g !! u).

(** Models [num_vertices] (editgraph.rs:142-144). *)
Definition eg_num_vertices (g : editgraph) : nat := size (eg_adj g).

(** Models [num_edges] (editgraph.rs:146-148). *)
Definition eg_num_edges (g : editgraph) : nat := eg_m g.

(** Models [PartialEq::eq] (editgraph.rs:108-121). *)
Definition eg_eq (g h : editgraph) : bool :=
  if negb (eg_num_vertices g =? eg_num_vertices h) then false
  else if negb (eg_num_edges g =? eg_num_edges h) then false
  else if negb (bool_decide (eg_degs g = eg_degs h)) then false
  else bool_decide (eg_adj g = eg_adj h).

(** Models [add_vertex] (editgraph.rs:207-215). *)
Definition eg_add_vertex (g : editgraph) (u : N) : editgraph * bool :=
  match eg_adj g !! u with
  | None => (EditGraph (<[u := ∅]> (eg_adj g)) (<[u := 0]> (eg_degs g)) (eg_m g), true)
  | Some _ => (g, false)
  end.

(** Models [add_edge] (editgraph.rs:217-230); [get_mut(..).unwrap()] and the
    index [self.degs[u]] panic on a missing key. *)
Definition eg_add_edge (g : editgraph) (u v : N) : res (editgraph * bool) :=
  let g := (eg_add_vertex g u).1 in
  let g := (eg_add_vertex g v).1 in
  if negb (eg_adjacent g u v) then
    Nu ← unwrap (eg_adj g !! u);
    let adj := <[u := {[v]} ∪ Nu]> (eg_adj g) in
    Nv ← unwrap (adj !! v);
    let adj := <[v := {[u]} ∪ Nv]> adj in
    du ← unwrap (eg_degs g !! u);
    let degs := <[u := du + 1]> (eg_degs g) in
    dv ← unwrap (degs !! v);
    let degs := <[v := dv + 1]> degs in
    Ok (EditGraph adj degs (eg_m g + 1), true)
  else Ok (g, false).

(** Models [remove_edge] (editgraph.rs:232-243); subtraction below zero panics. *)
Definition eg_remove_edge (g : editgraph) (u v : N) : res (editgraph * bool) :=
  if eg_adjacent g u v then
    Nu ← unwrap (eg_adj g !! u);
    let adj := <[u := Nu ∖ {[v]}]> (eg_adj g) in
    Nv ← unwrap (adj !! v);
    let adj := <[v := Nv ∖ {[u]}]> adj in
    du ← unwrap (eg_degs g !! u);
    du' ← sub_checked du 1;
    let degs := <[u := du']> (eg_degs g) in
    dv ← unwrap (degs !! v);
    dv' ← sub_checked dv 1;
    let degs := <[v := dv']> degs in
    m' ← sub_checked (eg_m g) 1;
    Ok (EditGraph adj degs m', true)
  else Ok (g, false).

(** One iteration of the loop of [remove_vertex] (editgraph.rs:250-254). *)
Definition eg_remove_vertex_step (u : N) (g : editgraph) (v : N) : res editgraph :=
  Nv ← unwrap (eg_adj g !! v);
  let adj := <[v := Nv ∖ {[u]}]> (eg_adj g) in
  dv ← unwrap (eg_degs g !! v);
  dv' ← sub_checked dv 1;
  m' ← sub_checked (eg_m g) 1;
  Ok (EditGraph adj (<[v := dv']> (eg_degs g)) m').

Section with_iter.
Context `{HashIter}.

(** Models [remove_vertex] (editgraph.rs:245-261). *)
Definition eg_remove_vertex (g : editgraph) (u : N) : res (editgraph * bool) :=
  if negb (eg_contains g u) then Ok (g, false)
  else
    N ← unwrap (eg_adj g !! u);
    g ← fold_res (eg_remove_vertex_step u) (hash_iter 0 N) g;
    Ok (EditGraph (delete u (eg_adj g)) (delete u (eg_degs g)) (eg_m g), true).

(** The implementation of [trait Graph] for EditGraph (editgraph.rs:138-180):
    [vertices] is [adj.keys()], [neighbours] panics for absent vertices. *)
Definition eg_graph (g : editgraph) : graph := {|
  num_vertices := eg_num_vertices g;
  num_edges := eg_num_edges g;
  contains := eg_contains g;
  adjacent := eg_adjacent g;
  degree := eg_degree g;
  vertices := hash_iter 0 (dom (eg_adj g));
  neighbours u := match eg_adj g !! u with
                  | Some N => Ok (hash_iter 1 N)
                  | None => Panic
                  end;
|}.

(** Executes one editing call (MutableGraph, graph.rs:389-407; editgraph.rs:207-261). *)
Definition eg_step (g : editgraph) (o : edit_op) : res (editgraph * bool) :=
  match o with
  | AddVertex u => Ok (eg_add_vertex g u)
  | AddEdge u v => eg_add_edge g u v
  | RemoveEdge u v => eg_remove_edge g u v
  | RemoveVertex u => eg_remove_vertex g u
  end.

(** Executes a sequence of editing calls, collecting the returned booleans
    (editgraph.rs:207-261). *)
Fixpoint eg_run (g : editgraph) (os : list edit_op) : res (editgraph * list bool) :=
  match os with
  | [] => Ok (g, [])
  | o :: os => r ← eg_step g o;
               r' ← eg_run r.1 os;
               Ok (r'.1, r.2 :: r'.2)
  end.

(** Models [Clone::clone] (editgraph.rs:124-136). *)
Definition eg_clone (g : editgraph) : res editgraph :=
  fold_res (λ h v,
      let h := (eg_add_vertex h v).1 in
      N ← neighbours (eg_graph g) v;
      fold_res (λ h u, r ← eg_add_edge h u v; Ok r.1) N h)
    (vertices (eg_graph g)) eg_new.

(** Models [FromIterator<Edge>::from_iter] (editgraph.rs:182-190). *)
Definition eg_from_iter (es : list (N * N)) : res editgraph :=
  fold_res (λ h e, r ← eg_add_edge h e.1 e.2; Ok r.1) es eg_new.

(** Models [MutableGraph::add_vertices] (graph.rs:412-421); the u32 count does not wrap. *)
Definition eg_add_vertices (g : editgraph) (vs : list N) : editgraph * nat :=
  foldl (λ s v, let r := eg_add_vertex s.1 v in
                (r.1, if r.2 : bool then s.2 + 1 else s.2)) (g, 0) vs.

(** Models [MutableGraph::add_edges] (graph.rs:426-436). *)
Definition eg_add_edges (g : editgraph) (es : list (N * N)) : res (editgraph * nat) :=
  fold_res (λ s e, r ← eg_add_edge s.1 e.1 e.2;
                   Ok (r.1, if r.2 : bool then s.2 + 1 else s.2)) es (g, 0).

(** Models [MutableGraph::remove_loops] (graph.rs:441-455). *)
Definition eg_remove_loops (g : editgraph) : res (editgraph * nat) :=
  let cands := filter (λ u, eg_adjacent g u u = true) (vertices (eg_graph g)) in
  g' ← fold_res (λ h u, r ← eg_remove_edge h u u; Ok r.1) cands g;
  Ok (g', length cands).

(** Models [MutableGraph::remove_isolates] (graph.rs:460-468). *)
Definition eg_remove_isolates (g : editgraph) : res (editgraph * nat) :=
  let cands := filter (λ u, eg_degree g u = 0) (vertices (eg_graph g)) in
  g' ← fold_res (λ h u, r ← eg_remove_vertex h u; Ok r.1) cands g;
  Ok (g', length cands).

(** Models [Graph::subgraph] (graph.rs:365-378) with M = EditGraph, the only
    MutableGraph of the crate.  [Nv.intersection(&selected)] yields the members of
    the intersection in an arbitrary order. *)
Definition subgraph (G : graph) (X : list N) : res editgraph :=
  let selected : gset N := collect_set X in
  fold_res (λ h v,
      let h := (eg_add_vertex h v).1 in
      Nv ← neighbours G v;
      fold_res (λ h u, r ← eg_add_edge h u v; Ok r.1)
        (hash_iter 1 ((collect_set Nv : gset N) ∩ selected)) h)
    (hash_iter 0 selected) eg_new.

(** ** Generators *)

(** Models [path] (editgraph.rs:267-283). *)
Definition eg_path (n : N) : res editgraph :=
  if (n =? 0)%N then Ok eg_new
  else if (n =? 1)%N then Ok (eg_add_vertex eg_new 0).1
  else fold_res (λ h u, r ← eg_add_edge h u (u + 1)%N; Ok r.1) (range 0 (n - 1)) eg_new.

(** Models [cycle] (editgraph.rs:286-294). *)
Definition eg_cycle (n : N) : res editgraph :=
  fold_res (λ h u, r ← eg_add_edge h u ((u + 1) mod n)%N; Ok r.1) (range 0 n) eg_new.

(** Models [matching] (editgraph.rs:297-305); [u+n] wraps. *)
Definition eg_matching (n : N) : res editgraph :=
  fold_res (λ h u, r ← eg_add_edge h u (u32 (u + n)); Ok r.1) (range 0 n) eg_new.

(** Models [clique] (editgraph.rs:313-323). *)
Definition eg_clique (n : N) : res editgraph :=
  fold_res (λ h u,
      let h := (eg_add_vertex h u).1 in
      fold_res (λ h v, r ← eg_add_edge h u v; Ok r.1) (range (u + 1) n) h)
    (range 0 n) eg_new.

(** Models [independent] (editgraph.rs:326-333). *)
Definition eg_independent (n : N) : editgraph :=
  foldl (λ h u, (eg_add_vertex h u).1) eg_new (range 0 n).

(** Models [biclique] (editgraph.rs:337-346); [s+t] wraps. *)
Definition eg_biclique (s t : N) : res editgraph :=
  fold_res (λ h u,
      fold_res (λ h v, r ← eg_add_edge h u v; Ok r.1) (range s (u32 (s + t))) h)
    (range 0 s) eg_new.

(** Models [star] (editgraph.rs:308-310). *)
Definition eg_star (n : N) : res editgraph := eg_biclique 1 n.

(** The [ranges] vector of [complete_kpartite] (editgraph.rs:361-366); wraps. *)
Fixpoint kpartite_ranges (left : N) (sizes : list N) : list (N * N) :=
  match sizes with
  | [] => []
  | s :: sizes => (left, u32 (left + s)) :: kpartite_ranges (u32 (left + s)) sizes
  end.

(** The body of the [for i] loop of [complete_kpartite] (editgraph.rs:374-382), with the
    ranges behind index [i] as [rest]. *)
Definition kpartite_row (a : N * N) (rest : list (N * N)) (h : editgraph) : res editgraph :=
  fold_res (λ h b,
    fold_res (λ h u,
      fold_res (λ h v, r ← eg_add_edge h u v; Ok r.1) (range b.1 b.2) h)
      (range a.1 a.2) h) rest h.

(** The double loop over the ranges (editgraph.rs:373-383). *)
Fixpoint kpartite_loop (rs : list (N * N)) (h : editgraph) : res editgraph :=
  match rs with
  | [] => Ok h
  | a :: rest => h' ← kpartite_row a rest h; kpartite_loop rest h'
  end.

(** Models [complete_kpartite] (editgraph.rs:352-386). *)
Definition eg_complete_kpartite (sizes : list N) : res editgraph :=
  match sizes with
  | [] => Ok eg_new
  | [s] => eg_clique s
  | _ => kpartite_loop (kpartite_ranges 0 sizes) eg_new
  end.

(** Models [grid] (editgraph.rs:389-423); label arithmetic wraps. *)
Definition eg_grid (s t : N) : res editgraph :=
  if ((s =? 0) || (t =? 0))%N then Ok eg_new
  else
    h ← fold_res (λ h y,
          h ← fold_res (λ h x,
                let u := u32 (y * t + x) in
                r ← eg_add_edge h u (u32 (u + 1));
                r' ← eg_add_edge r.1 u (u32 (u + t));
                Ok r'.1) (range 0 (t - 1)) h;
          let u := u32 (y * t + t - 1) in
          r ← eg_add_edge h u (u32 (u + t));
          Ok r.1) (range 0 (s - 1)) eg_new;
    fold_res (λ h x,
        let u := u32 ((s - 1) * t + x) in
        r ← eg_add_edge h u (u32 (u + 1));
        Ok r.1) (range 0 (t - 1)) h.

(** [Iterator::max] on vertices (used at editgraph.rs:430). *)
Definition max_opt (l : list N) : option N :=
  foldl (λ o x, Some (match o with Some y => N.max y x | None => x end)) None l.

(** Models [disj_union] (editgraph.rs:427-439); label arithmetic wraps (release mode). *)
Definition eg_disj_union (g : editgraph) (G : graph) : res editgraph :=
  let offset : N := match max_opt (vertices (eg_graph g)) with
                    | Some x => u32 (x + 1) | None => 0%N end in
  let h := (eg_add_vertices eg_new (vertices (eg_graph g))).1 in
  es ← edges (eg_graph g);
  r ← eg_add_edges h es;
  let h := (eg_add_vertices r.1 ((λ v, u32 (v + offset)) <$> vertices G)).1 in
  es' ← edges G;
  r' ← eg_add_edges h ((λ e : N * N, (u32 (e.1 + offset), u32 (e.2 + offset))) <$> es');
  Ok r'.1.

(** Models [disj_unions] (editgraph.rs:442-448). *)
Definition eg_disj_unions (Gs : list graph) : res editgraph :=
  fold_res eg_disj_union Gs eg_new.

(** [Iterator::collect] into a hash map: later items overwrite earlier ones. *)
Definition collect_map {K A} `{Countable K} (l : list (K * A)) : gmap K A :=
  foldl (λ m kv, <[kv.1 := kv.2]> m) ∅ l.

(** Models [normalize] (editgraph.rs:457-475). [sort_unstable] on vertices is
    [merge_sort]; [i as Vertex] does not wrap as there are at most 2^32 vertices. *)
Definition eg_normalize (g : editgraph) : res (editgraph * gmap N N) :=
  let order := merge_sort N.le (vertices (eg_graph g)) in
  let id2vex : gmap N N := collect_map (imap (λ i v, (N.of_nat i, v)) order) in
  let vex2id : gmap N N := collect_map ((λ kv, (kv.2, kv.1)) <$> map_iter 0 id2vex) in
  h ← fold_res (λ h u, i ← unwrap (vex2id !! u); Ok (eg_add_vertex h i).1)
        (vertices (eg_graph g)) eg_new;
  es ← edges (eg_graph g);
  h ← fold_res (λ h e, i ← unwrap (vex2id !! e.1); j ← unwrap (vex2id !! e.2);
                       r ← eg_add_edge h i j; Ok r.1) es h;
  Ok (h, id2vex).

(** Models [contract_pair] (editgraph.rs:496-507). *)
Definition eg_contract_pair (g : editgraph) (u v : N) : res editgraph :=
  if negb (eg_contains g u) || negb (eg_contains g v) then Panic
  else
    Nv ← neighbours (eg_graph g) v;
    let N : gset N := collect_set Nv ∖ {[u]} in
    g ← fold_res (λ h x, r ← eg_add_edge h u x; Ok r.1) (hash_iter 2 N) g;
    r ← eg_remove_vertex g v;
    Ok r.1.

(** Models [contract_into] (editgraph.rs:511-526). *)
Definition eg_contract_into (g : editgraph) (center : N) (X : list N) : res editgraph :=
  let contract : gset N := collect_set X ∖ {[center]} in
  Nb ← neighbourhood (eg_graph g) (hash_iter 2 contract);
  let Nb := Nb ∖ {[center]} in
  g ← fold_res (λ h u, r ← eg_add_edge h center u; Ok r.1) (hash_iter 3 Nb) g;
  fold_res (λ h v, r ← eg_remove_vertex h v; Ok r.1) (hash_iter 4 contract) g.

(** Models [contract] (editgraph.rs:483-490). *)
Definition eg_contract (g : editgraph) (X : list N) : res (editgraph * N) :=
  match X with
  | [] => Panic
  | u :: X => g ← eg_contract_into g u X; Ok (g, u)
  end.

End with_iter.
