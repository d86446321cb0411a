(** Model of the map methods of [VertexColouring] (graph.rs:155-245); the field [colouring] is a finite map,
    so [as_map] and [From<VertexMap>::from] (graph.rs:166-168, 235-239) are the identity.
    [colours], [disjoint_extend], [subset], [invert], [majority_set] and [from_sets] are in M_Colouring. *)
From Verif Require Import Base.

(** Models [Default::default] (graph.rs:241-245). *)
Definition cm_default {T} : gmap N T := ∅.
(** Models [insert] (graph.rs:170-172), which returns the value it replaces. *)
Definition cm_insert {T} (m : gmap N T) (v : N) (c : T) : gmap N T * option T := (<[v := c]> m, m !! v).
(** Models [from_iter] (graph.rs:161-164); the standard map inserts one pair after the other. *)
Definition cm_from_iter {T} (l : list (N * T)) : gmap N T := foldl (λ m p, (cm_insert m p.1 p.2).1) cm_default l.
(** Models [len] (graph.rs:178-180). *)
Definition cm_len {T} (m : gmap N T) : nat := size m.
(** Models [get] (graph.rs:205-207). *)
Definition cm_get {T} (m : gmap N T) (u : N) : option T := m !! u.
(** Models [contains] (graph.rs:209-211). *)
Definition cm_contains {T} (m : gmap N T) (u : N) : bool := match m !! u with Some _ => true | None => false end.
(** Models [Index::index] (graph.rs:226-232), which panics on vertices without a colour. *)
Definition cm_index {T} (m : gmap N T) (u : N) : res T := unwrap (m !! u).

Section with_iter.
Context `{HashIter}.

(** Models [iter] (graph.rs:174-176). *)
Definition cm_iter {T} (m : gmap N T) : list (N * T) := map_iter 7 m.
(** Models [vertices] (graph.rs:182-184). *)
Definition cm_vertices {T} (m : gmap N T) : list N := (map_iter 8 m).*1.
End with_iter.

(** The calls that change a colouring: [insert] one pair, or replace it with [from_iter] (graph.rs:161-172). *)
Inductive cm_op (T : Type) := CmInsert (v : N) (c : T) | CmFromIter (l : list (N * T)).
Global Arguments CmInsert {_} _ _.
Global Arguments CmFromIter {_} _.
(** One call (graph.rs:161-172), with the value [insert] returns. *)
Definition cm_step {T} (m : gmap N T) (o : cm_op T) : gmap N T * option T :=
  match o with CmInsert v c => cm_insert m v c | CmFromIter l => (cm_from_iter l, None) end.
(** A sequence of calls starting with [default] (graph.rs:161-172, 241-245). *)
Definition cm_run {T} (os : list (cm_op T)) : gmap N T := foldl (λ m o, (cm_step m o).1) cm_default os.
