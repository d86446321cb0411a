(** Model of the neighbourhood iterators of iterators.rs and of the default [Digraph::neighbours] of graph.rs.
    Every iterator holds the vertices still to come; its [next] asks the graph for the neighbours of the first one.
    [neigh_next] (M_Iterators), [out_neigh_next] (M_EditDigraph) and [dni_next] (M_DTF) model three of the [next]
    functions already. *)
From Verif Require Import Base M_Graph M_Iterators M_OrdGraph M_EditDigraph M_DTF.

(** Models [NeighIterator::new] and [neighbourhoods] (iterators.rs:24-28, 80-90). *)
Definition ni_new (G : graph) : list N := vertices G.

(** Models [enum DiNeighIteratorMode] (iterators.rs:50). *)
Inductive di_mode := DiIn | DiOut.

(** Models [DiNeighIterator::new_in] and [new_out] with [in_neighbourhoods] and [out_neighbourhoods]
    (iterators.rs:52-60, 104-112); the mode is an argument of [dn_next]. *)
Definition dn_new (D : digraph) : list N := vertices (dg D).
(** Models [DiNeighIterator::next] (iterators.rs:62-75). *)
Definition dn_next (D : digraph) (mode : di_mode) (vs : list N) : res (option (N * list N) * list N) :=
  match vs with
  | [] => Ok (None, [])
  | v :: vs =>
      match mode with
      | DiIn => N ← in_neighbours D v; Ok (Some (v, N), vs)
      | DiOut => N ← out_neighbours D v; Ok (Some (v, N), vs)
      end
  end.

(** Models [LeftNeighIterator::new] and [left_neighbourhoods] (iterators.rs:441-445, 461-471). *)
Definition ln_new (L : lgraph) : list N := vertices L.
(** Models [LeftNeighIterator::next] (iterators.rs:447-456). *)
Definition ln_next (L : lgraph) (vs : list N) : res (option (N * list N) * list N) :=
  match vs with
  | [] => Ok (None, [])
  | v :: vs => N ← left_neighbours L v; Ok (Some (v, N), vs)
  end.

(** Models the default [Digraph::neighbours] (graph.rs:502-505); both iterators are made before the first item. *)
Definition digraph_neighbours (D : digraph) (u : N) : res (list N) :=
  Nin ← in_neighbours D u; Nout ← out_neighbours D u; Ok (Nin ++ Nout).

Section with_iter.
Context `{HashIter}.

(** Models [DTFNIterator::all_depths] and [fixed_depth] with [in_neighbourhoods_iter] and
    [in_neighbourhoods_iter_at] (iterators.rs:334-351, dtfgraph.rs:391-397); the depth is an argument of
    [dni_next]. *)
Definition dni_new (g : dtfgraph) : list N := df_vertices g.

End with_iter.
