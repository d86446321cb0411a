(** Statement vocabulary (no code is modelled here): Graph implementations whose neighbour
    lists may repeat vertices, as the one of EditDigraph does for antiparallel arcs. *)
From Verif Require Import Base M_Graph S_Graph.

(** Like [graph_wf], but [neighbours] may repeat items and nothing is said about degrees and
    the number of edges. *)
Record weak_wf (G : graph) : Prop := {
  ww_vertices : ∀ u, u ∈ vertices G ↔ vtx G u;
  ww_vertices_nodup : NoDup (vertices G);
  ww_num_vertices : num_vertices G = length (vertices G);
  ww_adj_vtx : ∀ u v, adj G u v → vtx G u;
  ww_adj_sym : ∀ u v, adj G u v → adj G v u;
  ww_neighbours : ∀ u, vtx G u → ∃ l, neighbours G u = Ok l ∧ ∀ v, v ∈ l ↔ adj G u v;
}.

Lemma graph_wf_weak G : graph_wf G → weak_wf G.
Proof.
  intros Hwf. split; try apply Hwf. intros u Hu. destruct (wf_neighbours _ Hwf u Hu) as (l & ? & _ & ? & _). eauto.
Qed.
Coercion graph_wf_weak : graph_wf >-> weak_wf.
