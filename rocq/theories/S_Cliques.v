(** Statement vocabulary for cliques and colourings (no code is modelled here). *)
From Verif Require Import Base Spec M_Graph M_OrdGraph S_Graph.

(** The vertices in [X] are pairwise adjacent. *)
Definition clique (G : graph) (X : gset N) : Prop := ∀ x y, x ∈ X → y ∈ X → x ≠ y → adj G x y.

(** [X] is an inclusion-maximal non-empty clique of the subgraph induced by [P]. *)
Definition max_clique_in (G : graph) (P : N → Prop) (X : gset N) : Prop :=
  X ≠ ∅ ∧ (∀ x, x ∈ X → P x) ∧ clique G X ∧ ∀ y, P y → y ∉ X → ∃ x, x ∈ X ∧ ¬ adj G y x.

(** [X] is an inclusion-maximal non-empty clique of [G]. *)
Definition max_clique (G : graph) (X : gset N) : Prop := max_clique_in G (vtx G) X.

(** The left neighbours of [v] are pairwise adjacent. *)
Definition left_clique (L : lgraph) (v : N) : Prop := ∀ x y,
  adj L v x → before (vertices L) x v → adj L v y → before (vertices L) y v → x ≠ y → adj L x y.

(** The left neighbours of [v] are pairwise non-adjacent. *)
Definition left_independent (L : lgraph) (v : N) : Prop := ∀ x y,
  adj L v x → before (vertices L) x v → adj L v y → before (vertices L) y v → ¬ adj L x y.

(** [c] gives different values to adjacent vertices in its domain. *)
Definition proper_on_domain (G : graph) (c : gmap N N) : Prop := ∀ u v a b,
  adj G u v → c !! u = Some a → c !! v = Some b → a ≠ b.

(** Going from a vertex to the next one in the order, the number of left neighbours grows by at
    most one. *)
Definition left_degrees_rise_slowly (L : lgraph) : Prop :=
  ∀ u v lu lv, consec (vertices L) u v →
    NoDup lu → (∀ x, x ∈ lu ↔ adj L u x ∧ before (vertices L) x u) →
    NoDup lv → (∀ x, x ∈ lv ↔ adj L v x ∧ before (vertices L) x v) →
    length lv ≤ S (length lu).
