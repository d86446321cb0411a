(** Specification vocabulary for DTFGraph (dtfgraph.rs). *)
From Verif Require Import Base Spec M_Graph M_Iterators M_EditGraph M_DTF S_Graph.

(** [harc g w u v]: the query [has_arc_at(u, v, w)] answers yes. *)
Definition harc (g : dtfgraph) (w : nat) (u v : N) : Prop := df_has_arc_at g u v w = Ok true.

Section with_iter.
Context `{HashIter}.

(** States reachable from [orient(G)] by augmentations and dominating-set computations. *)
Inductive dtf_reach (G : graph) : dtfgraph → Prop :=
  | dr_orient g : df_orient G = Ok g → dtf_reach G g
  | dr_augment g d f g' : dtf_reach G g → df_augment g d f = Ok g' → dtf_reach G g'
  | dr_domset g r D g' : dtf_reach G g → df_domset g r = Ok (D, g') → dtf_reach G g'.

(** As before, with calls of [layer(k)] for [1 <= k <= depth+1]. *)
Inductive dtf_reach_layer (G : graph) : dtfgraph → Prop :=
  | drl_orient g : df_orient G = Ok g → dtf_reach_layer G g
  | drl_augment g d f g' : dtf_reach_layer G g → df_augment g d f = Ok g' → dtf_reach_layer G g'
  | drl_domset g r D g' : dtf_reach_layer G g → df_domset g r = Ok (D, g') → dtf_reach_layer G g'
  | drl_layer g k : dtf_reach_layer G g → 1 ≤ k ≤ df_depth g + 1 → dtf_reach_layer G (df_layer g k).

(** States reachable by any calls of the public methods that return. *)
Inductive dtf_any : dtfgraph → Prop :=
  | da_orient G g : graph_wf G → loopless G → df_orient G = Ok g → dtf_any g
  | da_orient_deep G d g : graph_wf G → loopless G → df_orient_deep G d = Ok g → dtf_any g
  | da_edge_subgraph g es g' : dtf_any g → df_edge_subgraph g es = Ok g' → dtf_any g'
  | da_add_vertex g u : dtf_any g → dtf_any (df_add_vertex g u)
  | da_add_arc g u v d g' : dtf_any g → df_add_arc g u v d = Ok g' → dtf_any g'
  | da_layer g d : dtf_any g → dtf_any (df_layer g d)
  | da_augment g d f g' : dtf_any g → df_augment g d f = Ok g' → dtf_any g'
  | da_domset g r D g' : dtf_any g → df_domset g r = Ok (D, g') → dtf_any g'.
End with_iter.
