(** Model of reachgraph.rs (packed reachability sets) and of [OrdGraph::to_wreach_graph] and
    [OrdGraph::to_sreach_graph].  The const parameter [DEPTH] is the argument [D]. *)
From Verif Require Import Base M_Graph M_Iterators M_OrdGraph M_DegenGraph M_Linear.

(** Models [struct ReachGraph] (reachgraph.rs:9-14).  Simplified: the counters in
    [right_degrees] are [nat], without u32 overflow. *)
Record reachgraph := ReachGraph {
  rg_indices : gmap N nat;
  rg_contents : list N;
  rg_right : gmap N nat;
  rg_edges : gset (N * N);
}.

(** Models [ReachGraph::new] (reachgraph.rs:50-55). *)
Definition rg_new : reachgraph := ReachGraph ∅ [] ∅ ∅.

(** Models [struct Reachables] (reachgraph.rs:16-21); the arrays of length [DEPTH] are lists. *)
Record reachables := Reachables {
  ra_from : N;
  ra_segs : list (list N);
  ra_bounds : list (nat * nat);
}.

(** Models [Reachables::len] (reachgraph.rs:25-27). *)
Definition ra_len (x : reachables) : nat := sum_list (length <$> ra_segs x).
(** Models [Reachables::is_empty] (reachgraph.rs:30-32). *)
Definition ra_is_empty (x : reachables) : bool := forallb (λ s : list N, length s =? 0) (ra_segs x).
(** Models [Reachables::at] (reachgraph.rs:36-39). *)
Definition ra_at (D : nat) (x : reachables) (depth : nat) : res (list N) :=
  _ ← assert_res ((1 <=? depth) && (depth <=? D));
  unwrap (ra_segs x !! (depth - 1)).
(** Models [Reachables::get_boundaries] (reachgraph.rs:43-46). *)
Definition ra_get_boundaries (x : reachables) (depth : nat) : res (nat * nat) :=
  _ ← assert_res ((1 <=? depth) && (depth <? length (ra_segs x) + 1));
  unwrap (ra_bounds x !! depth).

(** Models [ReachGraph::first] (reachgraph.rs:58-64). *)
Definition rg_first (g : reachgraph) : option N := head (rg_contents g).

(** Models [ReachGraph::reachables_at] (reachgraph.rs:66-87). *)
Definition rg_reachables_at (D : nat) (g : reachgraph) (iu : nat) : res reachables :=
  u ← unwrap (rg_contents g !! iu);
  ws ← slice (rg_contents g) (iu + 2) (S (iu + D + 1));
  st ← fold_res (λ st w,
        let '(lo, segs, bounds) := (st : nat * list (list N) * list (nat * nat)) in
        let hi := N.to_nat w in
        seg ← slice (rg_contents g) lo hi;
        Ok (hi, segs ++ [seg], bounds ++ [(lo, hi)])) ws (iu + D + 2, [], []);
  _ ← assert_res (length st.1.2 =? D);
  _ ← assert_res (length st.2 =? D);
  Ok (Reachables u st.1.2 st.2).

(** Models [ReachGraph::index_of] (reachgraph.rs:163-165). *)
Definition rg_index_of (g : reachgraph) (u : N) : res nat := unwrap (rg_indices g !! u).

(** Models [ReachGraph::reachables] (reachgraph.rs:89-92). *)
Definition rg_reachables (D : nat) (g : reachgraph) (u : N) : res reachables :=
  iu ← rg_index_of g u;
  rg_reachables_at D g iu.

(** Models [ReachGraph::next_reachables] (reachgraph.rs:94-104), with the debug assertion. *)
Definition rg_next_reachables (D : nat) (g : reachgraph) (lst : N) : res (option reachables) :=
  il ← rg_index_of g lst;
  w ← unwrap (rg_contents g !! il);
  _ ← assert_res (bool_decide (lst = w));
  nx ← unwrap (rg_contents g !! (il + 1));
  if N.to_nat nx =? il then Ok None
  else x ← rg_reachables_at D g (N.to_nat nx); Ok (Some x).

(** Models [ReachGraph::reachables_all] (reachgraph.rs:106-115), with the debug assertion. *)
Definition rg_reachables_all (D : nat) (g : reachgraph) (u : N) : res (list N) :=
  iu ← rg_index_of g u;
  w ← unwrap (rg_contents g !! iu);
  _ ← assert_res (bool_decide (u = w));
  let lo := iu + D + 2 in
  hi ← unwrap (rg_contents g !! (lo - 1));
  slice (rg_contents g) lo (N.to_nat hi).

(** Models [ReachGraph::segment] (reachgraph.rs:117-125), with the debug assertion. *)
Definition rg_segment (D : nat) (g : reachgraph) (u : N) : res (list N) :=
  iu ← rg_index_of g u;
  w ← unwrap (rg_contents g !! iu);
  _ ← assert_res (bool_decide (u = w));
  hi ← unwrap (rg_contents g !! (iu + D + 1));
  slice (rg_contents g) iu (N.to_nat hi).

(** Models [ReachGraph::left_neighbours] (reachgraph.rs:167-169). *)
Definition rg_left_neighbours (D : nat) (g : reachgraph) (u : N) : res (list N) :=
  x ← rg_reachables D g u;
  ra_at D x 1.

(** Models [ReachGraph::right_degree] (reachgraph.rs:171-173). *)
Definition rg_right_degree (g : reachgraph) (u : N) : nat :=
  match rg_right g !! u with Some d => d | None => 0 end.

(** Models [ReachGraph::degree] (reachgraph.rs:149-151); [left_degree] is the default of
    LinearGraph (graph.rs:652-657). *)
Definition rg_degree (D : nat) (g : reachgraph) (u : N) : res nat :=
  d ← (if bool_decide (is_Some (rg_indices g !! u)) then l ← rg_left_neighbours D g u; Ok (length l)
       else Ok 0);
  Ok (d + rg_right_degree g u).

(** Models [ReachOrderIterator::new] (reachgraph.rs:280-286). *)
Definition ro_new (g : reachgraph) : option nat :=
  if size (rg_indices g) =? 0 then None else Some 0.
(** Models [ReachOrderIterator::next] (reachgraph.rs:292-310). *)
Definition ro_next (g : reachgraph) (s : option nat) : res (option N * option nat) :=
  order_next (rg_contents g) s.
(** All items of [ReachOrderIterator]. *)
Definition rg_order (g : reachgraph) : res (list N) :=
  collect_it (ro_next g) (S (size (rg_indices g))) (ro_new g).

(** Models [impl Graph for ReachGraph] (reachgraph.rs:132-160).  A failing iterator and a failing
    [degree] are conflated with the empty list and 0, and excluded by the theorems. *)
Definition rg_graph (D : nat) (g : reachgraph) : graph := {|
  num_vertices := size (rg_indices g);
  num_edges := size (rg_edges g);
  contains := λ u, bool_decide (is_Some (rg_indices g !! u));
  adjacent := λ u v, bool_decide ((u, v) ∈ rg_edges g) || bool_decide ((v, u) ∈ rg_edges g);
  degree := λ u, match rg_degree D g u with Ok d => d | _ => 0 end;
  vertices := match rg_order g with Ok l => l | _ => [] end;
  neighbours := λ _, Panic;
|}.

(** Models [impl LinearGraph for ReachGraph] (reachgraph.rs:162-174). *)
Definition rg_lgraph (D : nat) (g : reachgraph) : lgraph := {|
  lg_graph := rg_graph D g;
  index_of := rg_index_of g;
  left_neighbours := rg_left_neighbours D g;
  right_degree := rg_right_degree g;
|}.

(** Models [ReachIterator::new] and [ReachGraph::iter] (reachgraph.rs:321-324, 341-345). *)
Definition ri_new (D : nat) (g : reachgraph) : res (option reachables) :=
  match rg_first g with
  | Some u => x ← rg_reachables D g u; Ok (Some x)
  | None => Ok None
  end.
(** Models [ReachIterator::next] (reachgraph.rs:330-340). *)
Definition ri_next (D : nat) (g : reachgraph) (s : option reachables)
    : res (option (N * reachables) * option reachables) :=
  match s with
  | Some x =>
      next ← rg_next_reachables D g (ra_from x);
      Ok (Some (ra_from x, x), next)
  | None => Ok (None, None)
  end.

(** Models [struct ReachGraphBuilder] and its [new] (reachgraph.rs:176-191); [build] is the
    projection [rb_graph]. *)
Record rg_builder := RgBuilder { rb_last : option N; rb_graph : reachgraph }.
Definition rb_new : rg_builder := RgBuilder None rg_new.

(** The order of the tuples [(dist, order\[v\], v)] in [sort_unstable] (reachgraph.rs:226). *)
Definition triple_le (p q : nat * nat * N) : Prop :=
  p.1.1 < q.1.1 ∨ (p.1.1 = q.1.1 ∧ (p.1.2 < q.1.2 ∨ (p.1.2 = q.1.2 ∧ (p.2 <= q.2)%N))).
Global Instance triple_le_dec p q : Decision (triple_le p q).
Proof. unfold triple_le. apply _. Defined.

(** Checked addition of u32 values (reachgraph.rs:214-263). *)
Definition add_u32 (a b : N) : res N := _ ← assert_res (a + b <? u32_mod)%N; Ok (a + b)%N.

(** The [while] loop over [curr_dist] (reachgraph.rs:256-261), on fuel; the state is the
    contents, [curr_dist] and [index]. *)
Fixpoint rb_words (fuel : nat) (iu base : N) (offset dist : nat) (st : list N * nat * N)
    : res (list N * nat * N) :=
  let '(c, curr, index) := st in
  if curr <? dist then
    match fuel with
    | O => Diverge
    | S fuel =>
        w ← add_u32 base (u32 (N.of_nat offset));
        let c := c ++ [w] in
        t ← add_u32 iu index;
        _ ← assert_res (u32 (N.of_nat (length c - 1)) =? t)%N;
        rb_words fuel iu base offset dist (c, S curr, (index + 1)%N)
    end
  else Ok (c, curr, index).

Section with_iter.
Context `{HashIter}.

(** Models [ReachGraphBuilder::append] (reachgraph.rs:196-270).  Distances are [nat]. *)
Definition rb_append (D : nat) (b : rg_builder) (u : N) (reach : gmap N nat) (order : gmap N nat)
    : res rg_builder :=
  let g := rb_graph b in
  p ← packed_push (rg_indices g) (rg_contents g) (rb_last b) u;
  let '(ind, c, iu) := (p : gmap N nat * list N * N) in
  keys ← fold_res (λ l p, o ← unwrap (order !! p.1); Ok (l ++ [(p.2, o, p.1)])) (map_iter 4 reach)
           ([] : list (nat * nat * N));
  let keys := merge_sort triple_le keys in
  let vs := (λ t : nat * nat * N, t.2) <$> keys in
  let dists := (λ t : nat * nat * N, t.1.1) <$> keys in
  let re :=
    foldl (λ (re : gmap N nat * gset (N * N)) p,
      if (p.2 =? 1)%nat then
        (map_upd 0 S p.1 re.1,
         {[ if (u <? p.1)%N then (u, p.1) else (p.1, u) ]} ∪ re.2)
      else re) (rg_right g, rg_edges g) (map_iter 5 reach) in
  t ← add_u32 iu (N.of_nat D);
  base ← add_u32 t 2;
  top ← add_u32 (N.of_nat D) 1;
  st ← fold_res (λ st p, rb_words p.2 iu base p.1 p.2 st) (imap pair (dists ++ [N.to_nat top])) (c, 1, 2%N);
  let c := st.1.1 in
  t ← add_u32 iu (N.of_nat D);
  t ← add_u32 t 1;
  _ ← assert_res (u32 (N.of_nat (length c - 1)) =? t)%N;
  Ok (RgBuilder (Some iu) (ReachGraph ind (c ++ vs) re.1 re.2)).

(** A sequence of [append] calls followed by [build]. *)
Definition rb_appends (D : nat) (order : gmap N nat) (apps : list (N * gmap N nat)) : res reachgraph :=
  b ← fold_res (λ b p, rb_append D b p.1 p.2 order) apps rb_new;
  Ok (rb_graph b).

(** Models [OrdGraph::to_wreach_graph] (ordgraph.rs:102-112). *)
Definition og_to_wreach_graph (D : nat) (g : ordgraph) : res reachgraph :=
  W ← wreach_sets (og_lgraph g) D;
  b ← fold_res (λ b u, w ← unwrap (W !! u); rb_append D b u w (og_indices g)) (vertices (og_graph g)) rb_new;
  Ok (rb_graph b).

(** Models [OrdGraph::to_sreach_graph] (ordgraph.rs:114-123). *)
Definition og_to_sreach_graph (D : nat) (g : ordgraph) : res reachgraph :=
  b ← fold_res (λ b u, s ← sreach_set (og_lgraph g) u D; rb_append D b u s (og_indices g))
        (vertices (og_graph g)) rb_new;
  Ok (rb_graph b).
End with_iter.
