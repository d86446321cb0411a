(** Independent specification vocabulary.  Nothing in this file models code of
    the repository; these are the mathematical notions the properties are
    stated with (abstract graphs, walks, distances, orders). *)
From Verif Require Import Base.

(** ** Abstract undirected graphs with loops: a set of vertices and a set of
    unordered edges, an unordered pair being represented with the smaller
    endpoint first. *)
Record agraph := AGraph { av : gset N; ae : gset (N * N) }.

Definition upair (u v : N) : N * N := if (u <=? v)%N then (u, v) else (v, u).

Definition a_empty : agraph := AGraph ∅ ∅.
Definition a_adj (G : agraph) (u v : N) : Prop := upair u v ∈ ae G.
Definition a_add_vertex (G : agraph) (u : N) : agraph :=
  AGraph ({[u]} ∪ av G) (ae G).
Definition a_add_edge (G : agraph) (u v : N) : agraph :=
  AGraph ({[u]} ∪ {[v]} ∪ av G) ({[upair u v]} ∪ ae G).
Definition a_remove_edge (G : agraph) (u v : N) : agraph :=
  AGraph (av G) (ae G ∖ {[upair u v]}).
Definition a_remove_vertex (G : agraph) (u : N) : agraph :=
  AGraph (av G ∖ {[u]}) (filter (λ e, e.1 ≠ u ∧ e.2 ≠ u) (ae G)).

(** Number of edge endpoints at [u]: loops count twice. *)
Definition a_degree (G : agraph) (u : N) : nat :=
  size (filter (λ e, e.1 = u) (ae G)) + size (filter (λ e, e.2 = u) (ae G)).

(** Editing operations as data, and their abstract semantics: the new abstract
    graph and whether it changed. *)
Inductive edit_op :=
  | AddVertex (u : N)
  | AddEdge (u v : N)
  | RemoveEdge (u v : N)
  | RemoveVertex (u : N).

Definition a_step (G : agraph) (o : edit_op) : agraph * bool :=
  match o with
  | AddVertex u => (a_add_vertex G u, bool_decide (u ∉ av G))
  | AddEdge u v => (a_add_edge G u v, bool_decide (upair u v ∉ ae G))
  | RemoveEdge u v => (a_remove_edge G u v, bool_decide (upair u v ∈ ae G))
  | RemoveVertex u => (a_remove_vertex G u, bool_decide (u ∈ av G))
  end.

Fixpoint a_run (G : agraph) (os : list edit_op) : agraph * list bool :=
  match os with
  | [] => (G, [])
  | o :: os => let '(G1, b) := a_step G o in
               let '(G2, bs) := a_run G1 os in (G2, b :: bs)
  end.

(** ** Walks and distances, for any relation. *)
Definition within {A} (R : A → A → Prop) (r : nat) (x y : A) : Prop :=
  ∃ n, n ≤ r ∧ nsteps R n x y.
Definition is_dist {A} (R : A → A → Prop) (d : nat) (x y : A) : Prop :=
  nsteps R d x y ∧ ∀ n, nsteps R n x y → d ≤ n.

(** [pos l x i]: [x] occurs at position [i] of [l]. *)
Definition pos {A} (l : list A) (x : A) (i : nat) : Prop := l !! i = Some x.
(** [before l x y]: [x] occurs before [y] in the order [l]. *)
Definition before {A} (l : list A) (x y : A) : Prop :=
  ∃ i j, pos l x i ∧ pos l y j ∧ i < j.

(** Sum over a list. *)
Definition sum_map {A} (f : A → nat) (l : list A) : nat := sum_list (f <$> l).

(** [walk R l]: consecutive entries of [l] are related. *)
Fixpoint walk {A} (R : A → A → Prop) (l : list A) : Prop :=
  match l with
  | x :: ((y :: _) as t) => R x y ∧ walk R t
  | _ => True
  end.
(** A walk whose last vertex is related to the first. *)
Definition closed_walk {A} (R : A → A → Prop) (c : list A) : Prop :=
  walk R c ∧ ∃ x y, head c = Some x ∧ last c = Some y ∧ R y x.
(** [consec l x y]: [y] directly follows [x] in [l]. *)
Definition consec {A} (l : list A) (x y : A) : Prop :=
  ∃ i, l !! i = Some x ∧ l !! S i = Some y.
