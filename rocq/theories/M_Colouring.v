(** Model of the vertex-map utilities of graph.rs: [VertexOrEdge], [VertexMapOperations],
    [VertexColouring] and [IntegerColouring] (graph.rs:44-272). *)
From Verif Require Import Base.

(** Models [enum VertexOrEdge] (graph.rs:46-49). *)
Inductive voe :=
  | V (v : N)
  | E (e : N * N).

(** Models [VertexOrEdge::as_vertex] (graph.rs:52-57). *)
Definition as_vertex (a : voe) : option N := match a with V v => Some v | E _ => None end.
(** Models [VertexOrEdge::is_vertex] (graph.rs:59-64). *)
Definition is_vertex (a : voe) : bool := match a with V _ => true | E _ => false end.
(** Models [VertexOrEdge::is_edge] (graph.rs:66-71). *)
Definition is_edge (a : voe) : bool := match a with V _ => false | E _ => true end.
(** Models [VertexOrEdge::as_edge] (graph.rs:73-78). *)
Definition as_edge (a : voe) : option (N * N) := match a with V _ => None | E e => Some e end.

(** Models [VertexOrEdge::intersection] (graph.rs:88-118). *)
Definition intersection (x y : voe) : option voe :=
  match x, y with
  | V x, V y => if bool_decide (x = y) then Some (V x) else None
  | V x, E (a, b) | E (a, b), V x =>
      if bool_decide (x = a) || bool_decide (x = b) then Some (V x) else None
  | E (a, b), E (c, d) =>
      if bool_decide ((a, b) = (c, d)) || bool_decide ((b, a) = (c, d)) then Some (E (a, b))
      else if bool_decide (a = c) || bool_decide (a = d) then Some (V a)
      else if bool_decide (b = c) || bool_decide (b = d) then Some (V b)
      else None
  end.

(** Models [VertexOrEdge::intersects] (graph.rs:82-84). *)
Definition intersects (x y : voe) : bool :=
  match intersection x y with Some _ => true | None => false end.

Section with_iter.
Context `{HashIter}.

(** Models [VertexMap::invert] (graph.rs:146-152) and [VertexColouring::invert] (graph.rs:249-251). *)
Definition vm_invert {T} `{Countable T} (m : gmap N T) : gmap T (gset N) :=
  foldl (λ res p, map_upd ∅ (λ X, {[p.1]} ∪ X) p.2 res) ∅ (map_iter 0 m).

(** The key of [sorted_by_key] in [majority_set] (graph.rs:141): larger sets come first. *)
Definition larger {T} (p q : T * gset N) : Prop := size q.2 ≤ size p.2.
Global Instance larger_dec {T} (p q : T * gset N) : Decision (larger p q).
Proof. unfold larger. apply _. Defined.

(** Models [VertexMap::majority_set] (graph.rs:134-144) and [VertexColouring::majority_set]
    (graph.rs:245-247): the groups are sorted, stably, by decreasing size. *)
Definition vm_majority_set {T} `{Countable T} (m : gmap N T) : res (option (gset N * T)) :=
  if bool_decide (m = ∅) then Ok None
  else
    p ← unwrap (head (merge_sort larger (map_iter 1 (vm_invert m))));
    Ok (Some (p.2, p.1)).

(** The operations of [num::Integer] used by [disjoint_extend] (graph.rs:190-203); addition
    panics on overflow.  [inc] adds one. *)
Record int_ty (T : Type) := IntTy {
  it_zero : T;
  it_one : T;
  it_leb : T → T → bool;
  it_add : T → T → res T;
}.
Global Arguments it_zero {_} _.
Global Arguments it_one {_} _.
Global Arguments it_leb {_} _ _ _.
Global Arguments it_add {_} _ _ _.

(** The instance at [u32] (graph.rs:190, as used in lineargraph.rs:475). *)
Definition ty_u32 : int_ty N :=
  IntTy N 0%N 1%N N.leb (λ a b, if (a + b <? u32_mod)%N then Ok (a + b)%N else Panic).
(** The instance at [i32] (graph.rs:190). *)
Definition ty_i32 : int_ty Z :=
  IntTy Z 0%Z 1%Z Z.leb
    (λ a b, if (-2147483648 <=? a + b)%Z && (a + b <? 2147483648)%Z then Ok (a + b)%Z else Panic).

(** [Iterator::max] (graph.rs:195). *)
Definition list_max {T} (I : int_ty T) (l : list T) : option T :=
  foldl (λ o x, match o with Some y => if it_leb I y x then Some x else Some y | None => Some x end) None l.

(** Models the computation of [offset] in [disjoint_extend] (graph.rs:191-198). *)
Definition vc_offset {T} `{Countable T} (I : int_ty T) (self : gmap N T) : res T :=
  let colours : gset T := collect_set (map_iter 2 self).*2 in
  if bool_decide (colours = ∅) then Ok (it_zero I)
  else m ← unwrap (list_max I (hash_iter 3 colours)); it_add I m (it_one I).

(** Models [VertexColouring::disjoint_extend] (graph.rs:190-203). *)
Definition vc_disjoint_extend {T} `{Countable T} (I : int_ty T) (self other : gmap N T) : res (gmap N T) :=
  offset ← vc_offset I self;
  fold_res (λ m p,
    c ← it_add I p.2 offset;
    Ok (match m !! p.1 with Some _ => m | None => <[p.1 := c]> m end)) (map_iter 4 other) self.

(** Models [VertexColouring::colours] (graph.rs:186-188): the values without repetitions. *)
Definition vc_colours {T} `{Countable T} (self : gmap N T) : list T :=
  foldl (λ l c, if bool_decide (c ∈ l) then l else l ++ [c]) [] (map_iter 5 self).*2.

(** Models [VertexColouring::subset] (graph.rs:213-223). *)
Definition vc_subset {T} (self : gmap N T) (vs : list N) : gmap N T :=
  foldl (λ m v, match self !! v with Some c => <[v := c]> m | None => m end) ∅ vs.

(** Models [IntegerColouring::from_sets] (graph.rs:260-269); [i as u32] wraps. *)
Definition vc_from_sets (sets : list (gset N)) : gmap N N :=
  foldl (λ m p, foldl (λ m v, <[v := u32 (N.of_nat p.1)]> m) m (hash_iter 6 p.2)) ∅ (imap pair sets).

End with_iter.
