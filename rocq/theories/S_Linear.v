(** Statement vocabulary for graphs with a linear order (no code is modelled here). *)
From Verif Require Import Base Spec M_Graph M_OrdGraph S_Graph.

(** [l] lists the elements of [P] without repetition in the order given by [order]. *)
Definition lists_in_order (order : list N) (P : N → Prop) (l : list N) : Prop :=
  (∀ x, x ∈ l ↔ P x) ∧ ∀ i j x y, l !! i = Some x → l !! j = Some y → i < j → before order x y.

(** A LinearGraph implementation that describes the loopless graph with adjacency [adj L] with
    its vertices in the order [vertices L]. *)
Record lgraph_wf (L : lgraph) : Prop := {
  lwf_graph : graph_wf L;
  lwf_loopless : loopless L;
  lwf_index : ∀ u, vtx L u → ∃ i, index_of L u = Ok i;
  lwf_index_panic : ∀ u, ¬ vtx L u → index_of L u = Panic;
  lwf_index_lt : ∀ u v i j, index_of L u = Ok i → index_of L v = Ok j →
    i < j ↔ before (vertices L) u v;
  lwf_left : ∀ u, vtx L u → ∃ l, left_neighbours L u = Ok l ∧
    lists_in_order (vertices L) (λ v, adj L u v ∧ before (vertices L) v u) l;
  lwf_right : ∀ u, vtx L u → ∃ l, NoDup l ∧ right_degree L u = length l ∧
    ∀ v, v ∈ l ↔ adj L u v ∧ before (vertices L) u v;
}.

(** The order with the positions of [u] and [v] exchanged. *)
Definition swap_order (u v : N) (order : list N) : list N :=
  (λ x, if decide (x = u) then v else if decide (x = v) then u else x) <$> order.
