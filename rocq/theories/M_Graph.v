(** Model of [trait Graph] and its default methods (graph.rs). *)
From Verif Require Import Base.

(** Models the required methods of [trait Graph] (graph.rs:276-315).
    [vertices] and [neighbours u] are the sequences of items the returned
    iterators yield ([neighbours] may panic).  Simplified: a Graph is a fixed
    record of method results, i.e. an immutable borrow; counts are unbounded. *)
Record graph := Graph {
  num_vertices : nat;
  num_edges : nat;
  contains : N → bool;
  adjacent : N → N → bool;
  degree : N → nat;
  vertices : list N;
  neighbours : N → res (list N);
}.

(** Models the default methods [Graph::len] and [Graph::is_empty] (graph.rs:302-309). *)
Definition g_len (G : graph) : nat := num_vertices G.
Definition g_is_empty (G : graph) : bool := g_len G =? 0.

(** Models [Graph::degrees] (graph.rs:293-299). *)
Definition degrees (G : graph) : gmap N nat :=
  foldl (λ m v, <[v := degree G v]> m) ∅ (vertices G).

Section with_iter.
Context `{HashIter}.

(** Models [Graph::neighbourhood] (graph.rs:319-330). *)
Definition neighbourhood (G : graph) (X : list N) : res (gset N) :=
  let centers := collect_set X in
  res ← fold_res (λ acc v, N ← neighbours G v; Ok (acc ∪ list_to_set N))
          (hash_iter 0 centers) (∅ : gset N);
  Ok (filter (λ u, u ∉ centers) res).

(** Models [Graph::closed_neighbourhood] (graph.rs:334-344). *)
Definition closed_neighbourhood (G : graph) (X : list N) : res (gset N) :=
  fold_res (λ acc v, N ← neighbours G v; Ok ({[v]} ∪ (acc ∪ list_to_set N))) X (∅ : gset N).

(** Models the loop of [Graph::r_neighbourhood] (graph.rs:357-360). *)
Fixpoint r_neighbourhood_loop (G : graph) (r : nat) (acc : gset N) : res (gset N) :=
  match r with
  | O => Ok acc
  | S r => ext ← closed_neighbourhood G (hash_iter r acc);
           r_neighbourhood_loop G r (acc ∪ ext)
  end.

(** Models [Graph::r_neighbourhood] (graph.rs:353-362). *)
Definition r_neighbourhood (G : graph) (X : list N) (r : nat) : res (gset N) :=
  r_neighbourhood_loop G r (list_to_set X).

(** Models [Graph::r_neighbours] (graph.rs:347-349). *)
Definition r_neighbours (G : graph) (u : N) (r : nat) : res (gset N) :=
  r_neighbourhood G [u] r.

End with_iter.
