(** Model of [trait LinearGraph] (graph.rs:640-703) and ordgraph.rs. *)
From Verif Require Import Base M_Graph M_Iterators M_Algorithms.

(** Models the required methods of [trait LinearGraph] (graph.rs:640-648);
    [index_of] and [left_neighbours] may panic. *)
Record lgraph := LGraph {
  lg_graph :> graph;
  index_of : N → res nat;
  left_neighbours : N → res (list N);
  right_degree : N → nat;
}.

(** Models [LinearGraph::left_degree] (graph.rs:652-658). *)
Definition left_degree (L : lgraph) (u : N) : res nat :=
  if contains L u then l ← left_neighbours L u; Ok (length l) else Ok 0.

(** Models [LinearGraph::left_degrees] (graph.rs:661-667). *)
Definition left_degrees (L : lgraph) : res (gmap N nat) :=
  fold_res (λ m u, d ← left_degree L u; Ok (<[u := d]> m)) (vertices L) ∅.

(** Models [LinearGraph::max_left_degree] (graph.rs:670-672). *)
Definition max_left_degree (L : lgraph) : res nat :=
  fold_res (λ m u, d ← left_degree L u; Ok (max m d)) (vertices L) 0.

(** Models [LinearGraph::right_degrees] (graph.rs:675-681). *)
Definition right_degrees (L : lgraph) : gmap N nat :=
  foldl (λ m u, <[u := right_degree L u]> m) ∅ (vertices L).

(** Models [LinearGraph::max_right_degree] (graph.rs:684-686). *)
Definition max_right_degree (L : lgraph) : nat :=
  foldl (λ m u, max m (right_degree L u)) 0 (vertices L).

(** Models [LinearGraph::leftmost] (graph.rs:690-694): [min_by_key] keeps the first minimum. *)
Definition leftmost (L : lgraph) (X : list N) : res (option N) :=
  r ← fold_res (λ best u,
        i ← index_of L u;
        Ok match best with
           | None => Some (i, u)
           | Some (j, _) => if i <? j then Some (i, u) else best
           end) X None;
  Ok (option_map snd r).

(** Models [LinearGraph::rightmost] (graph.rs:698-702): [max_by_key] keeps the last maximum. *)
Definition rightmost (L : lgraph) (X : list N) : res (option N) :=
  r ← fold_res (λ best u,
        i ← index_of L u;
        Ok match best with
           | None => Some (i, u)
           | Some (j, _) => if j <=? i then Some (i, u) else best
           end) X None;
  Ok (option_map snd r).

(** Models [struct OrdNode] (ordgraph.rs:35-39). *)
Record ordnode := OrdNode { on_v : N; on_left : gset N; on_right : gset N }.

(** Models [struct OrdGraph] (ordgraph.rs:28-32). *)
Record ordgraph := OrdGraph {
  og_indices : gmap N nat;
  og_nodes : list ordnode;
  og_m : nat;
}.

(** Models [OrdNode::new] (ordgraph.rs:49-51). *)
Definition on_new (v : N) : ordnode := OrdNode v ∅ ∅.

(** Models [nodes.get_mut(i).unwrap().left.insert(x)] (ordgraph.rs:80, 83). *)
Definition on_insert_left (nodes : list ordnode) (i : nat) (x : N) : res (list ordnode) :=
  n ← unwrap (nodes !! i);
  Ok (<[i := OrdNode (on_v n) ({[x]} ∪ on_left n) (on_right n)]> nodes).
(** Models [nodes.get_mut(i).unwrap().right.insert(x)] (ordgraph.rs:79, 82). *)
Definition on_insert_right (nodes : list ordnode) (i : nat) (x : N) : res (list ordnode) :=
  n ← unwrap (nodes !! i);
  Ok (<[i := OrdNode (on_v n) (on_left n) ({[x]} ∪ on_right n)]> nodes).

(** Models the map [indices] (ordgraph.rs:66): later positions overwrite earlier ones. *)
Definition og_index_map (order : list N) : gmap N nat :=
  foldl (λ m p, <[p.2 := p.1]> m) ∅ (imap pair order).

(** Models the loop body at ordgraph.rs:74-86. *)
Definition og_insert_edge (ind : gmap N nat) (nodes : list ordnode) (e : N * N) : res (list ordnode) :=
  let '(u, v) := e in
  iu ← unwrap (ind !! u);
  iv ← unwrap (ind !! v);
  if iu <? iv then
    nodes ← on_insert_right nodes iu v;
    on_insert_left nodes iv u
  else
    nodes ← on_insert_right nodes iv u;
    on_insert_left nodes iu v.

(** Models [OrdGraph::with_ordering] (ordgraph.rs:61-89). *)
Definition og_with_ordering (G : graph) (order : list N) : res ordgraph :=
  let ind := og_index_map order in
  nodes ← fold_res (λ nodes v,
      i ← unwrap (ind !! v);
      _ ← assert_res (i =? length nodes);
      Ok (nodes ++ [on_new v])) order [];
  es ← edges G;
  nodes ← fold_res (og_insert_edge ind) es nodes;
  Ok (OrdGraph ind nodes (num_edges G)).

Section with_iter.
Context `{HashIter}.

(** Models [OrdGraph::by_degeneracy] (ordgraph.rs:55-58). *)
Definition og_by_degeneracy (G : graph) : res ordgraph :=
  r ← degeneracy G;
  og_with_ordering G r.1.2.

(** Models [OrdNode::neighbours] (ordgraph.rs:43-45). *)
Definition on_neighbours (n : ordnode) : list N :=
  hash_iter 0 (on_left n) ++ hash_iter 1 (on_right n).

(** Models the body of the loop over [(s, old_i, new_i)] in [swap] (ordgraph.rs:139-164);
    [Vec] indexing panics out of bounds. *)
Definition og_move (ind : gmap N nat) (s : N) (old_i new_i : nat) (nodes : list ordnode) : res (list ordnode) :=
  n ← unwrap (nodes !! old_i);
  st ← fold_res (λ st x,
      ix ← unwrap (ind !! x);
      Ok (if ix <? new_i then (st.1.1 ++ [ix], {[x]} ∪ st.1.2, st.2)
          else (st.1.1 ++ [ix], st.1.2, {[x]} ∪ st.2)))
    (on_neighbours n) ([] : list nat, ∅ : gset N, ∅ : gset N);
  fold_res (λ nodes ix,
      n ← unwrap (nodes !! ix);
      Ok (if (ix <? new_i) && bool_decide (s ∈ on_left n) then
            <[ix := OrdNode (on_v n) (on_left n ∖ {[s]}) ({[s]} ∪ on_right n)]> nodes
          else if (new_i <? ix) && bool_decide (s ∈ on_right n) then
            <[ix := OrdNode (on_v n) ({[s]} ∪ on_left n) (on_right n ∖ {[s]})]> nodes
          else nodes))
    st.1.1 (<[old_i := OrdNode (on_v n) st.1.2 st.2]> nodes).

(** Models [OrdGraph::swap] (ordgraph.rs:126-171). *)
Definition og_swap (g : ordgraph) (u v : N) : res ordgraph :=
  if bool_decide (u = v) then Ok g else
  match og_indices g !! u, og_indices g !! v with
  | Some iu, Some iv =>
      nodes ← og_move (og_indices g) u iu iv (og_nodes g);
      nodes ← og_move (og_indices g) v iv iu nodes;
      a ← unwrap (nodes !! iu);
      b ← unwrap (nodes !! iv);
      Ok (OrdGraph (<[v := iu]> (<[u := iv]> (og_indices g))) (<[iv := a]> (<[iu := b]> nodes)) (og_m g))
  | _, _ => Ok g
  end.

(** The comparison of cached keys in [sort_by_cached_key] (ordgraph.rs:179, 242). *)
Definition key_le (p q : nat * N) : Prop := p.1 ≤ q.1.
Global Instance key_le_dec p q : Decision (key_le p q).
Proof. unfold key_le. apply _. Defined.

(** Models [sort_by_cached_key(|v| indices.get(v).unwrap())] (ordgraph.rs:179, 242). *)
Definition sort_by_index (ind : gmap N nat) (l : list N) : res (list N) :=
  ks ← mapM (λ v, i ← unwrap (ind !! v); Ok (i, v)) l;
  Ok (snd <$> merge_sort key_le ks).

(** Models [OrdGraph::right_neighbours] (ordgraph.rs:174-182). *)
Definition og_right_neighbours (g : ordgraph) (u : N) : res (list N) :=
  i ← unwrap (og_indices g !! u);
  n ← unwrap (og_nodes g !! i);
  sort_by_index (og_indices g) (hash_iter 2 (on_right n)).

(** Models [OrdGraph::left_neighbours] (ordgraph.rs:237-245). *)
Definition og_left_neighbours (g : ordgraph) (u : N) : res (list N) :=
  i ← unwrap (og_indices g !! u);
  n ← unwrap (og_nodes g !! i);
  sort_by_index (og_indices g) (hash_iter 3 (on_left n)).

(** The node of [u]; the lookup pattern of ordgraph.rs:199-200, 208-209, 248-249.  An index
    outside [nodes] would panic; it is conflated with a missing vertex in the three boolean or
    numeric queries below and excluded by the invariant. *)
Definition og_node (g : ordgraph) (u : N) : option ordnode :=
  i ← og_indices g !! u; og_nodes g !! i.

(** Models [impl Graph for OrdGraph] (ordgraph.rs:185-230). *)
Definition og_graph (g : ordgraph) : graph := {|
  num_vertices := length (og_nodes g);
  num_edges := og_m g;
  contains := λ u, bool_decide (is_Some (og_indices g !! u));
  adjacent := λ u v, match og_node g u with
                     | Some n => bool_decide (v ∈ on_left n) || bool_decide (v ∈ on_right n)
                     | None => false
                     end;
  degree := λ u, match og_node g u with
                 | Some n => size (on_left n) + size (on_right n)
                 | None => 0
                 end;
  vertices := on_v <$> og_nodes g;
  neighbours := λ u, match og_indices g !! u with
                     | Some i => n ← unwrap (og_nodes g !! i); Ok (on_neighbours n)
                     | None => Ok []
                     end;
|}.

(** Models [impl LinearGraph for OrdGraph] (ordgraph.rs:232-255). *)
Definition og_lgraph (g : ordgraph) : lgraph := {|
  lg_graph := og_graph g;
  index_of := λ u, unwrap (og_indices g !! u);
  left_neighbours := og_left_neighbours g;
  right_degree := λ u, match og_node g u with Some n => size (on_right n) | None => 0 end;
|}.

End with_iter.
