(** Statement vocabulary over the modelled API (no code is modelled here):
    what it means for a [graph] record to behave like a finite undirected graph,
    and which EditGraph states are reachable. *)
From Verif Require Import Base Spec M_Graph M_EditGraph.

(** Propositional forms of the boolean queries. *)
Definition vtx (G : graph) (u : N) : Prop := contains G u = true.
Definition adj (G : graph) (u v : N) : Prop := adjacent G u v = true.

(** A Graph implementation whose methods agree with each other and describe a
    finite undirected graph (loops allowed, counted twice in the degree). *)
Record graph_wf (G : graph) : Prop := {
  wf_vertices : ∀ u, u ∈ vertices G ↔ vtx G u;
  wf_vertices_nodup : NoDup (vertices G);
  wf_num_vertices : num_vertices G = length (vertices G);
  wf_adj_vtx : ∀ u v, adj G u v → vtx G u;
  wf_adj_sym : ∀ u v, adj G u v → adj G v u;
  wf_neighbours : ∀ u, vtx G u →
    ∃ l, neighbours G u = Ok l ∧ NoDup l ∧ (∀ v, v ∈ l ↔ adj G u v) ∧
         degree G u = length l + (if adjacent G u u then 1 else 0);
  wf_num_edges : ∃ E : gset (N * N),
    (∀ u v, (u, v) ∈ E ↔ (u <= v)%N ∧ adj G u v) ∧ num_edges G = size E;
}.

Definition loopless (G : graph) : Prop := ∀ u, ¬ adj G u u.

(** EditGraph states reachable from [EditGraph::new] by editing calls. *)
Definition eg_reachable `{HashIter} (g : editgraph) : Prop :=
  ∃ os bs, eg_run eg_new os = Ok (g, bs).

Definition ev (g : editgraph) (u : N) : Prop := eg_contains g u = true.
Definition ea (g : editgraph) (u v : N) : Prop := eg_adjacent g u v = true.
