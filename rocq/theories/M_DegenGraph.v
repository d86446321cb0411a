(** Model of degengraph.rs (the packed-array graph) and of [OrdGraph::to_degeneracy_graph]. *)
From Verif Require Import Base M_Graph M_Iterators M_EditGraph M_Algorithms M_OrdGraph.

(** Collecting all items of an iterator (Rust's [collect]/[for]); proved equal to [drains]. *)
Fixpoint collect_it {S A} (next : S → res (option A * S)) (fuel : nat) (s : S) : res (list A) :=
  match fuel with
  | O => Diverge
  | S fuel =>
      r ← next s;
      match r with
      | (None, _) => Ok []
      | (Some x, s') => l ← collect_it next fuel s'; Ok (x :: l)
      end
  end.

(** Rust slicing [c[lo..hi]]; out of range panics.  Also used for [get_unchecked(lo..hi)]
    (degengraph.rs:89, 138, 362), where out of range is undefined behaviour. *)
Definition slice (c : list N) (lo hi : nat) : res (list N) :=
  _ ← assert_res ((lo <=? hi) && (hi <=? length c));
  Ok (take (hi - lo) (drop lo c)).

(** Models the code shared by [DegenGraphBuilder::append] (degengraph.rs:252-262) and
    [ReachGraphBuilder::append] (reachgraph.rs:211-220): push the vertex and its link word,
    register its index, and link the previous vertex to it.  Returns the new indices, the new
    contents and [index_u].  Overflow of [index_u + 1] panics (the comparison is exact). *)
Definition packed_push (ind : gmap N nat) (c : list N) (last : option N) (u : N)
    : res (gmap N nat * list N * N) :=
  let c := c ++ [u] in
  let iu := u32 (N.of_nat (length c - 1)) in
  let ind := <[u := N.to_nat iu]> ind in
  let c := c ++ [iu] in
  _ ← assert_res (u32 (N.of_nat (length c - 1)) =? iu + 1)%N;
  c ← match last with
      | Some l =>
          _ ← assert_res (N.to_nat (l + 1) <? length c);
          Ok (<[N.to_nat (l + 1) := iu]> c)
      | None => Ok c
      end;
  Ok (ind, c, iu).

(** Models [DegenOrderIterator::next] (degengraph.rs:300-321) and [ReachOrderIterator::next]
    (reachgraph.rs:292-310) on the packed array; an unchecked access out of bounds (undefined
    behaviour) is modelled as [Panic]. *)
Definition order_next (c : list N) (s : option nat) : res (option N * option nat) :=
  match s with
  | Some ix =>
      u ← unwrap (c !! ix);
      nx ← unwrap (c !! (ix + 1));
      Ok (Some u, if N.to_nat nx =? ix then None else Some (N.to_nat nx))
  | None => Ok (None, None)
  end.

(** Models [struct DegenGraph] (degengraph.rs:13-18). *)
Record degengraph := DegenGraph {
  dg_indices : gmap N nat;
  dg_contents : list N;
  dg_right : gmap N (gset N);
  dg_m : nat;
}.

(** Models [DegenGraph::new] (degengraph.rs:55-60). *)
Definition dg_new : degengraph := DegenGraph ∅ [] ∅ 0.

(** Models [struct DegenGraphBuilder] and its [new] (degengraph.rs:220-234). *)
Record dg_builder := DgBuilder { db_last : option N; db_graph : degengraph }.
Definition db_new : dg_builder := DgBuilder None dg_new.

(** Models [DegenGraphBuilder::append] (degengraph.rs:240-279). *)
Definition db_append (b : dg_builder) (u : N) (ns : list N) : res dg_builder :=
  let g := db_graph b in
  let right := map_upd ∅ (λ X, X) u (dg_right g) in
  p ← packed_push (dg_indices g) (dg_contents g) (db_last b) u;
  let '(ind, c, iu) := p in
  let right := foldl (λ right v, map_upd ∅ (λ X, {[u]} ∪ X) v right) right ns in
  Ok (DgBuilder (Some iu)
        (DegenGraph ind (c ++ [u32 (N.of_nat (length ns))] ++ ns) right (dg_m g + length ns))).

(** The order of pairs [(usize, Vertex)] in [sort_unstable] (degengraph.rs:46). *)
Definition pair_le (p q : nat * N) : Prop := p.1 < q.1 ∨ (p.1 = q.1 ∧ (p.2 <= q.2)%N).
Global Instance pair_le_dec p q : Decision (pair_le p q).
Proof. unfold pair_le. apply _. Defined.

(** Models [DegenGraph::with_ordering] (degengraph.rs:28-53). *)
Definition dg_with_ordering (G : graph) (order : list N) : res degengraph :=
  let ind := og_index_map order in
  b ← fold_res (λ b u,
      iu ← unwrap (ind !! u);
      ns ← neighbours G u;
      L ← fold_res (λ L v,
            iv ← unwrap (ind !! v);
            Ok (if iv <? iu then L ++ [(iv, v)] else L)) ns ([] : list (nat * N));
      db_append b u (snd <$> merge_sort pair_le L)) order db_new;
  Ok (db_graph b).

(** Models [DegenGraph::first] (degengraph.rs:119-125). *)
Definition dg_first (g : degengraph) : option N := head (dg_contents g).

(** Models [DegenGraph::index_of] (degengraph.rs:192-194). *)
Definition dg_index_of (g : degengraph) (u : N) : res nat := unwrap (dg_indices g !! u).

(** Models [DegenGraph::left_neighbours_slice] (degengraph.rs:127-139), with the debug
    assertion. *)
Definition dg_left_slice (g : degengraph) (u : N) : res (list N) :=
  iu ← dg_index_of g u;
  w ← unwrap (dg_contents g !! iu);
  _ ← assert_res (bool_decide (u = w));
  num ← unwrap (dg_contents g !! (iu + 2));
  slice (dg_contents g) (iu + 3) (iu + 3 + N.to_nat num).

(** Models [DegenGraph::right_neighbours] (degengraph.rs:140-142). *)
Definition dg_right_neighbours (g : degengraph) (u : N) : res (gset N) := unwrap (dg_right g !! u).

(** Models [DegenGraph::adjacent_ordered] (degengraph.rs:147-152). *)
Definition dg_adjacent_ordered (g : degengraph) (u v : N) : bool :=
  match dg_right g !! u with Some R => bool_decide (v ∈ R) | None => false end.

(** Models [DegenGraph::left_degree] (degengraph.rs:200-210). *)
Definition dg_left_degree (g : degengraph) (u : N) : res nat :=
  match dg_indices g !! u with
  | Some iu => w ← unwrap (dg_contents g !! (iu + 2)); Ok (N.to_nat w)
  | None => Ok 0
  end.

(** Models [DegenGraph::right_degree] (degengraph.rs:212-217); simplified: no u32 wraparound
    of the size of a set. *)
Definition dg_right_degree (g : degengraph) (u : N) : nat :=
  match dg_right g !! u with Some R => size R | None => 0 end.

(** Models [DegenOrderIterator::new] (degengraph.rs:288-294). *)
Definition do_new (g : degengraph) : option nat :=
  if size (dg_indices g) =? 0 then None else Some 0.
(** Models [DegenOrderIterator::next] (degengraph.rs:300-321). *)
Definition do_next (g : degengraph) (s : option nat) : res (option N * option nat) :=
  order_next (dg_contents g) s.
(** All items of [DegenOrderIterator]. *)
Definition dg_order (g : degengraph) : res (list N) :=
  collect_it (do_next g) (S (size (dg_indices g))) (do_new g).

(** Models [DegenIterator::new] and [DegenGraph::iter] (degengraph.rs:332-335, 369-373). *)
Definition di_new (g : degengraph) : option nat :=
  if size (dg_indices g) =? 0 then None else Some 0.
(** Models [DegenIterator::next] (degengraph.rs:341-366), unchecked accesses as above. *)
Definition di_next (g : degengraph) (s : option nat) : res (option (N * list N) * option nat) :=
  match s with
  | Some i =>
      u ← unwrap (dg_contents g !! i);
      nx ← unwrap (dg_contents g !! (i + 1));
      num ← unwrap (dg_contents g !! (i + 2));
      l ← slice (dg_contents g) (i + 3) (i + 3 + N.to_nat num);
      Ok (Some (u, l), if N.to_nat nx =? i then None else Some (N.to_nat nx))
  | None => Ok (None, None)
  end.

Section with_iter.
Context `{HashIter}.

(** Models [DegenGraph::from_graph] (degengraph.rs:22-25). *)
Definition dg_from_graph (G : graph) : res degengraph :=
  r ← degeneracy G;
  dg_with_ordering G r.1.2.

(** Models [impl Graph for DegenGraph] (degengraph.rs:155-189).  [vertices] is the list of
    items of the order iterator; a failing iterator or a failing read of the left degree in
    [degree] is conflated with the empty list or 0 and excluded by the invariant. *)
Definition dg_graph (g : degengraph) : graph := {|
  num_vertices := size (dg_indices g);
  num_edges := dg_m g;
  contains := λ u, bool_decide (is_Some (dg_indices g !! u));
  adjacent := λ u v, match dg_right g !! u, dg_right g !! v with
                     | Some Ru, Some Rv => bool_decide (v ∈ Ru) || bool_decide (u ∈ Rv)
                     | _, _ => false
                     end;
  degree := λ u, (match dg_left_degree g u with Ok d => d | _ => 0 end) + dg_right_degree g u;
  vertices := match dg_order g with Ok l => l | _ => [] end;
  neighbours := λ u, l ← dg_left_slice g u; R ← unwrap (dg_right g !! u); Ok (l ++ hash_iter 0 R);
|}.

(** Models [impl LinearGraph for DegenGraph] (degengraph.rs:191-218); [left_degree] is
    overridden, see [dg_left_degree]. *)
Definition dg_lgraph (g : degengraph) : lgraph := {|
  lg_graph := dg_graph g;
  index_of := dg_index_of g;
  left_neighbours := dg_left_slice g;
  right_degree := dg_right_degree g;
|}.

(** State of the loop in [normalize] (degengraph.rs:68-71). *)
Record norm_state := NormState {
  ns_contents : list N; ns_n2o : gmap N N; ns_o2n : gmap N N }.

(** The [loop] of [DegenGraph::normalize] (degengraph.rs:73-99), on fuel; an unchecked access
    out of bounds (undefined behaviour) is modelled as [Panic]. *)
Fixpoint dg_norm_loop (fuel : nat) (i ix : nat) (s : norm_state) : res norm_state :=
  match fuel with
  | O => Diverge
  | S fuel =>
      let c := ns_contents s in
      u ← unwrap (c !! i);
      next ← unwrap (c !! (i + 1));
      num ← unwrap (c !! (i + 2));
      let left := i + 3 in
      let right := left + N.to_nat num in
      let c := <[i := u32 (N.of_nat ix)]> c in
      let n2o := <[u32 (N.of_nat ix) := u]> (ns_n2o s) in
      let o2n := <[u := u32 (N.of_nat ix)]> (ns_o2n s) in
      sl ← slice c left right;
      l ← mapM (λ v, unwrap (o2n !! v)) sl;
      let c := take left c ++ merge_sort N.le l ++ drop right c in
      let s := NormState c n2o o2n in
      if N.to_nat next =? i then Ok s else dg_norm_loop fuel (N.to_nat next) (S ix) s
  end.

(** Models [DegenGraph::normalize] (degengraph.rs:67-116). *)
Definition dg_normalize (g : degengraph) : res (gmap N N * degengraph) :=
  s ← dg_norm_loop (S (length (dg_contents g))) 0 0 (NormState (dg_contents g) ∅ ∅);
  right ← fold_res (λ r p,
      X ← mapM (λ x, unwrap (ns_o2n s !! x)) (hash_iter 2 (p.2 : gset N));
      u ← unwrap (ns_o2n s !! p.1);
      Ok (<[u := collect_set X]> r)) (map_iter 1 (dg_right g)) (∅ : gmap N (gset N));
  ind ← fold_res (λ m p,
      u ← unwrap (ns_o2n s !! p.1);
      Ok (<[u := p.2]> m)) (map_iter 3 (dg_indices g)) (∅ : gmap N nat);
  Ok (ns_n2o s, DegenGraph ind (ns_contents s) right (dg_m g)).

(** Models [OrdGraph::to_degeneracy_graph] (ordgraph.rs:91-100). *)
Definition og_to_degeneracy_graph (g : ordgraph) : res degengraph :=
  b ← fold_res (λ b u, L ← og_left_neighbours g u; db_append b u L) (vertices (og_graph g)) db_new;
  Ok (db_graph b).
End with_iter.
