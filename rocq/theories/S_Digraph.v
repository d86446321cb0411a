(** Statement vocabulary for digraphs: abstract digraphs, abstract editing, and
    the EditDigraph states reachable by editing. *)
From Verif Require Import Base Spec M_Graph M_EditGraph M_EditDigraph.

(** An abstract digraph: vertices and arcs (tail, head). *)
Record adigraph := ADigraph { dv : gset N; da : gset (N * N) }.
Definition d_empty : adigraph := ADigraph ∅ ∅.

(** Abstract editing: new digraph and whether it changed.  The operations of
    [edit_op] are read as arc operations. *)
Definition d_step (D : adigraph) (o : edit_op) : adigraph * bool :=
  match o with
  | AddVertex u => (ADigraph ({[u]} ∪ dv D) (da D), bool_decide (u ∉ dv D))
  | AddEdge u v => (ADigraph ({[u]} ∪ ({[v]} ∪ dv D)) ({[(u, v)]} ∪ da D), bool_decide ((u, v) ∉ da D))
  | RemoveEdge u v => (ADigraph (dv D) (da D ∖ {[(u, v)]}), bool_decide ((u, v) ∈ da D))
  | RemoveVertex u => (ADigraph (dv D ∖ {[u]}) (filter (λ e, e.1 ≠ u ∧ e.2 ≠ u) (da D)),
                       bool_decide (u ∈ dv D))
  end.

Fixpoint d_run (D : adigraph) (os : list edit_op) : adigraph * list bool :=
  match os with
  | [] => (D, [])
  | o :: os => let '(D1, b) := d_step D o in
               let '(D2, bs) := d_run D1 os in (D2, b :: bs)
  end.

Definition ed_reachable `{HashIter} (g : editdigraph) : Prop :=
  ∃ os bs, ed_run ed_new os = Ok (g, bs).

Definition dvtx (g : editdigraph) (u : N) : Prop := ed_contains g u = true.
Definition darc (g : editdigraph) (u v : N) : Prop := ed_has_arc g u v = true.
