(** Statement vocabulary for reachability in ordered graphs (no code is modelled here). *)
From Verif Require Import Base Spec M_Graph M_OrdGraph S_Graph.

(** [k] is the least number with property [P]. *)
Definition least (P : nat → Prop) (k : nat) : Prop := P k ∧ ∀ j, P j → k ≤ j.

(** [x] is [u] or to the right of [u] in the order of [L]. *)
Definition not_left (L : lgraph) (u x : N) : Prop := x = u ∨ before (vertices L) u x.

(** Adjacency in the subgraph induced by [u] and the vertices to its right. *)
Definition right_adj (L : lgraph) (u x y : N) : Prop := adj L x y ∧ not_left L u x ∧ not_left L u y.

(** There is a walk with [k] edges from [u] to [x] all of whose vertices other than the last one
    are [u] or to the right of [u]. *)
Definition sreach_walk (L : lgraph) (u x : N) (k : nat) : Prop :=
  ∃ q, length q = k ∧ head (q ++ [x]) = Some u ∧ walk (adj L) (q ++ [x]) ∧ ∀ y, y ∈ q → not_left L u y.

(** There is a walk with [k] edges from [u] to [v] of which [v] is the leftmost vertex. *)
Definition wreach_walk (L : lgraph) (u v : N) (k : nat) : Prop :=
  ∃ p, length p = S k ∧ head p = Some u ∧ last p = Some v ∧ walk (adj L) p ∧ ∀ y, y ∈ p → not_left L v y.

(** [s] maps exactly the vertices strongly [r]-reachable from [u] to the length of a shortest
    witnessing walk. *)
Definition sreach_spec (L : lgraph) (u : N) (r : nat) (s : gmap N nat) : Prop :=
  ∀ x k, s !! x = Some k ↔ before (vertices L) x u ∧ 1 ≤ k ≤ r ∧ least (sreach_walk L u x) k.

(** [w] maps exactly the vertices weakly [r]-reachable from [u] to the length of a shortest
    witnessing walk. *)
Definition wreach_spec (L : lgraph) (u : N) (r : nat) (w : gmap N nat) : Prop :=
  ∀ v k, w !! v = Some k ↔ before (vertices L) v u ∧ k ≤ r ∧ least (wreach_walk L u v) k.
