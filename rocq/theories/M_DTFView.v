(** The implementations of [trait Graph] and [trait Digraph] for DTFGraph and DTFLayer (dtfgraph.rs). *)
From Verif Require Import Base M_Graph M_Iterators M_EditGraph M_EditDigraph M_DTF.

Section with_iter.
Context `{HashIter}.

(** The implementation of [trait Graph] for DTFGraph (dtfgraph.rs:183-212); [neighbours] is [unimplemented!].
    Simplified: [num_edges] and [degree] have default values where the code panics, which is on graphs without
    counters and on vertices not in the graph. *)
Definition df_graph (g : dtfgraph) : graph := {|
  num_vertices := df_num_vertices g;
  num_edges := match df_num_edges g with Ok m => m | _ => 0 end;
  contains := df_contains g;
  adjacent := df_adjacent g;
  degree := λ u, match df_degree g u with Ok d => d | _ => 0 end;
  vertices := df_vertices g;
  neighbours := λ _, Panic;
|}.

(** The implementation of [trait Digraph] for DTFGraph (dtfgraph.rs:214-237); [out_neighbours] is [unimplemented!]. *)
Definition df_digraph (g : dtfgraph) : digraph := {|
  dg := df_graph g;
  has_arc := df_has_arc g;
  in_degree := df_in_degree g;
  out_degree := df_out_degree g;
  in_neighbours := df_in_neighbours g;
  out_neighbours := λ _, Panic;
|}.

(** The implementation of [trait Graph] for DTFLayer (dtfgraph.rs:50-79).  Simplified as for [df_graph]. *)
Definition dl_graph (g : dtfgraph) (depth : nat) : graph := {|
  num_vertices := df_num_vertices g;
  num_edges := match dl_num_edges g depth with Ok m => m | _ => 0 end;
  contains := df_contains g;
  adjacent := dl_adjacent g depth;
  degree := λ u, match dl_degree g depth u with Ok d => d | _ => 0 end;
  vertices := df_vertices g;
  neighbours := λ _, Panic;
|}.

(** The implementation of [trait Digraph] for DTFLayer (dtfgraph.rs:81-108).  Simplified: [has_arc] answers no
    where the code panics, which is at depth 0. *)
Definition dl_digraph (g : dtfgraph) (depth : nat) : digraph := {|
  dg := dl_graph g depth;
  has_arc := λ u v, match dl_has_arc g depth u v with Ok b => b | _ => false end;
  in_degree := dl_in_degree g depth;
  out_degree := dl_out_degree g depth;
  in_neighbours := dl_in_neighbours g depth;
  out_neighbours := λ _, Panic;
|}.
End with_iter.
