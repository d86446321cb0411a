(** Model of dtfgraph.rs (distance-truncated fraternal augmentations) and of the DTF iterators
    (iterators.rs:321-432).  Depths (arc weights) are 1-based as in the code, the vectors
    0-based; [depth - 1] is a checked subtraction. *)
From Verif Require Import Base M_Graph M_Iterators M_EditGraph M_Operations M_Algorithms M_OrdGraph M_Linear M_Colouring M_Domset.

(** Models [struct DTFNode] (dtfgraph.rs:111-115). *)
Record dtf_node := DtfNode {
  dn_in : list (gset N);
  dn_ind : list nat;
  dn_outd : list nat;
}.

(** Models [struct DTFGraph] (dtfgraph.rs:29-33). *)
Record dtfgraph := Dtf {
  df_nodes : gmap N dtf_node;
  df_depth : nat;
  df_ms : list nat;
}.

(** Models [DTFNode::new] (dtfgraph.rs:118-126). *)
Definition dn_new (depth : nat) : dtf_node :=
  DtfNode (replicate depth ∅) (replicate depth 0) (replicate depth 0).

(** Models [DTFNode::reserve_depth] (dtfgraph.rs:128-134): the number of iterations of the
    [while] loop is written out. *)
Definition dn_reserve (depth : nat) (n : dtf_node) : dtf_node :=
  let k := depth - length (dn_in n) in
  DtfNode (dn_in n ++ replicate k ∅) (dn_ind n ++ replicate k 0) (dn_outd n ++ replicate k 0).

(** Models [has_in_neighbour] (dtfgraph.rs:136-143). *)
Definition dn_has_in (n : dtf_node) (v : N) : bool := existsb (λ X, bool_decide (v ∈ X)) (dn_in n).

(** Models [has_in_neighbour_at] (dtfgraph.rs:145-150). *)
Definition dn_has_in_at (n : dtf_node) (v : N) (depth : nat) : res bool :=
  i ← sub_checked depth 1;
  Ok (match dn_in n !! i with Some X => bool_decide (v ∈ X) | None => false end).

(** Models [get_arc_depth_from] (dtfgraph.rs:152-159). *)
Definition dn_arc_depth (n : dtf_node) (v : N) : option nat :=
  match list_find (λ X : gset N, v ∈ X) (dn_in n) with Some (i, _) => Some (i + 1) | None => None end.

(** Models [sum1().unwrap()] (dtfgraph.rs:170, 174): itertools' [sum1] is [None] on an empty iterator. *)
Definition sum1 (l : list nat) : res nat := match l with [] => Panic | _ => Ok (sum_list l) end.
(** Models [in_degree] (dtfgraph.rs:169-171). *)
Definition dn_in_degree (n : dtf_node) : res nat := sum1 (dn_ind n).
(** Models [out_degree] (dtfgraph.rs:173-175). *)
Definition dn_out_degree (n : dtf_node) : res nat := sum1 (dn_outd n).
(** Models [degree] (dtfgraph.rs:177-179). *)
Definition dn_degree (n : dtf_node) : res nat :=
  o ← dn_out_degree n; i ← dn_in_degree n; Ok (o + i).

(** Models [DTFGraph::new] and [with_capacity] (dtfgraph.rs:241-256). *)
Definition df_new : dtfgraph := Dtf ∅ 1 [0].
(** Models [num_vertices] (dtfgraph.rs:184-186). *)
Definition df_num_vertices (g : dtfgraph) : nat := size (df_nodes g).
(** Models [num_edges] (dtfgraph.rs:188-190). *)
Definition df_num_edges (g : dtfgraph) : res nat := unwrap (df_ms g !! 0).
(** Models [contains] (dtfgraph.rs:192-194). *)
Definition df_contains (g : dtfgraph) (u : N) : bool :=
  match df_nodes g !! u with Some _ => true | None => false end.
(** Models [has_arc] (dtfgraph.rs:215-220). *)
Definition df_has_arc (g : dtfgraph) (u v : N) : bool :=
  match df_nodes g !! v with None => false | Some n => dn_has_in n u end.
(** Models [adjacent] (dtfgraph.rs:200-203). *)
Definition df_adjacent (g : dtfgraph) (u v : N) : bool := df_has_arc g u v || df_has_arc g v u.
(** Models [degree] (dtfgraph.rs:209-211). *)
Definition df_degree (g : dtfgraph) (u : N) : res nat := n ← unwrap (df_nodes g !! u); dn_degree n.
(** Models [in_degree] (dtfgraph.rs:222-224). *)
Definition df_in_degree (g : dtfgraph) (u : N) : res nat := n ← unwrap (df_nodes g !! u); dn_in_degree n.
(** Models [out_degree] (dtfgraph.rs:226-228). *)
Definition df_out_degree (g : dtfgraph) (u : N) : res nat := n ← unwrap (df_nodes g !! u); dn_out_degree n.

(** Models [num_arcs_at_depth] (dtfgraph.rs:276-282). *)
Definition df_num_arcs_at (g : dtfgraph) (depth : nat) : res nat :=
  if df_depth g <? depth then Ok 0
  else i ← sub_checked depth 1; unwrap (df_ms g !! i).

(** Models [add_vertex] (dtfgraph.rs:284-287). *)
Definition df_add_vertex (g : dtfgraph) (u : N) : dtfgraph :=
  match df_nodes g !! u with
  | Some _ => g
  | None => Dtf (<[u := dn_new (df_depth g)]> (df_nodes g)) (df_depth g) (df_ms g)
  end.

(** Models [DTFGraph::reserve_depth] (dtfgraph.rs:342-350). *)
Definition df_reserve (g : dtfgraph) (depth : nat) : dtfgraph :=
  if df_depth g <? depth
  then Dtf (dn_reserve depth <$> df_nodes g) depth (df_ms g ++ [0])
  else Dtf (df_nodes g) depth (df_ms g).

(** Models the side effect of [layer] (dtfgraph.rs:271-274); the returned view is modelled by
    the functions [dl_*] below. *)
Definition df_layer (g : dtfgraph) (depth : nat) : dtfgraph := df_reserve g depth.

(** Models [add_arc] (dtfgraph.rs:352-370). *)
Definition df_add_arc (g : dtfgraph) (u v : N) (depth : nat) : res dtfgraph :=
  let g := df_reserve g depth in
  let d := df_depth g in
  let nv := default (dn_new d) (df_nodes g !! v) in
  i ← sub_checked depth 1;
  X ← unwrap (dn_in nv !! i);
  if negb (bool_decide (u ∈ (X : gset N))) then
    k ← unwrap (dn_ind nv !! i);
    let nv := DtfNode (<[i := {[u]} ∪ X]> (dn_in nv)) (<[i := k + 1]> (dn_ind nv)) (dn_outd nv) in
    let nodes := <[v := nv]> (df_nodes g) in
    let nu := default (dn_new d) (nodes !! u) in
    k ← unwrap (dn_outd nu !! i);
    let nu := DtfNode (dn_in nu) (dn_ind nu) (<[i := k + 1]> (dn_outd nu)) in
    m ← unwrap (df_ms g !! i);
    Ok (Dtf (<[u := nu]> nodes) d (<[i := m + 1]> (df_ms g)))
  else Ok (Dtf (<[v := nv]> (df_nodes g)) d (df_ms g)).

(** Models [has_arc_at] (dtfgraph.rs:372-377). *)
Definition df_has_arc_at (g : dtfgraph) (u v : N) (depth : nat) : res bool :=
  match df_nodes g !! v with None => Ok false | Some n => dn_has_in_at n u depth end.

(** Models [get_arc_depth] (dtfgraph.rs:379-381). *)
Definition df_arc_depth (g : dtfgraph) (u v : N) : res (option nat) :=
  n ← unwrap (df_nodes g !! v); Ok (dn_arc_depth n u).

Section with_iter.
Context `{HashIter}.

(** Models [vertices] (dtfgraph.rs:196-198). *)
Definition df_vertices (g : dtfgraph) : list N := hash_iter 0 (dom (df_nodes g)).

(** Models [DTFNode::in_neighbours] (dtfgraph.rs:161-163). *)
Definition dn_in_neighbours (n : dtf_node) : list N := concat (map (hash_iter 40) (dn_in n)).
(** Models [DTFNode::in_neighbours_at] (dtfgraph.rs:165-167). *)
Definition dn_in_at (n : dtf_node) (depth : nat) : res (list N) :=
  i ← sub_checked depth 1; X ← unwrap (dn_in n !! i); Ok (hash_iter 40 X).
(** Models [in_neighbours] (dtfgraph.rs:234-236). *)
Definition df_in_neighbours (g : dtfgraph) (u : N) : res (list N) :=
  n ← unwrap (df_nodes g !! u); Ok (dn_in_neighbours n).
(** Models [in_neighbours_at] (dtfgraph.rs:399-401). *)
Definition df_in_at (g : dtfgraph) (u : N) (depth : nat) : res (list N) :=
  n ← unwrap (df_nodes g !! u); dn_in_at n depth.

(** Models the source of in-neighbourhoods in [DTFNIterator::next] (iterators.rs:357-370):
    [None] is the all-depths mode. *)
Definition dni_src (g : dtfgraph) (mode : option nat) (v : N) : res (list N) :=
  match mode with Some d => df_in_at g v d | None => df_in_neighbours g v end.

(** Models [DTFNIterator::next] (iterators.rs:356-371); the state is the list of vertices still
    to come. *)
Definition dni_next (g : dtfgraph) (mode : option nat) (vs : list N) : res (option (N * list N) * list N) :=
  match vs with
  | [] => Ok (None, [])
  | v :: vs => l ← dni_src g mode v; Ok (Some (v, l), vs)
  end.

(** Models [struct DTFArcIterator] (iterators.rs:374-378). *)
Record dai := Dai { dai_vs : list N; dai_cur : N; dai_it : option (list N) }.

(** Models [DTFArcIterator::advance] (iterators.rs:401-408). *)
Definition dai_advance (g : dtfgraph) (mode : option nat) (s : dai) : res dai :=
  r ← dni_next g mode (dai_vs s);
  match r with
  | (Some (v, it), vs) => Ok (Dai vs v (Some it))
  | (None, vs) => Ok (Dai vs (dai_cur s) None)
  end.

(** Models [DTFArcIterator::all_depths] and [fixed_depth] (iterators.rs:381-399). *)
Definition dai_new (g : dtfgraph) (mode : option nat) : res dai :=
  dai_advance g mode (Dai (df_vertices g) 4294967295 None).

(** Part of [DTFArcIterator::next] (iterators.rs:415-428): consume [curr_it] until an item
    passes the tie-break. *)
Fixpoint dai_scan (v : N) (it : list N) : option N * list N :=
  match it with
  | [] => (None, [])
  | u :: it => if (u <? v)%N then dai_scan v it else (Some u, it)
  end.

(** The [while] loop of [DTFArcIterator::next] (iterators.rs:415-428), by recursion on the
    vertices still to come. *)
Fixpoint dai_loop (g : dtfgraph) (mode : option nat) (v : N) (it : list N) (vs : list N)
    : res (option (N * N) * dai) :=
  match dai_scan v it with
  | (Some u, it') => Ok (Some (v, u), Dai vs v (Some it'))
  | (None, _) =>
      match vs with
      | [] => Ok (None, Dai [] v None)
      | v' :: vs' => it' ← dni_src g mode v'; dai_loop g mode v' it' vs'
      end
  end.

(** Models [DTFArcIterator::next] (iterators.rs:414-431). *)
Definition dai_next (g : dtfgraph) (mode : option nat) (s : dai) : res (option (N * N) * dai) :=
  match dai_it s with
  | None => Ok (None, s)
  | Some it => dai_loop g mode (dai_cur s) it (dai_vs s)
  end.

(** The items of [arcs()] and [arcs_at(d)] (dtfgraph.rs:383-389) as a list; proved equal to
    draining the iterator above. *)
Definition df_arcs_list (g : dtfgraph) (mode : option nat) : res (list (N * N)) :=
  ls ← mapM (M:=res) (λ v, l ← dni_src g mode v; Ok (pair v <$> filter (λ u, ¬ (u < v)%N) (l : list N)))
         (df_vertices g);
  Ok (concat ls).

(** Models [to_undirected] with EditGraph (dtfgraph.rs:258-269). *)
Definition df_to_undirected (g : dtfgraph) : res editgraph :=
  let h := foldl (λ h u, (eg_add_vertex h u).1) eg_new (df_vertices g) in
  es ← df_arcs_list g None;
  fold_res (λ h e, r ← eg_add_edge h e.1 e.2; Ok r.1) es h.

(** Models [edge_subgraph] (dtfgraph.rs:301-317). *)
Definition df_edge_subgraph (g : dtfgraph) (es : list (N * N)) : res dtfgraph :=
  let h := foldl df_add_vertex df_new (df_vertices g) in
  fold_res (λ h e,
    h ← (if df_has_arc g e.1 e.2 then df_add_arc h e.1 e.2 1 else Ok h);
    if df_has_arc g e.2 e.1 then df_add_arc h e.2 e.1 1 else Ok h) es h.

(** Models [orient] (dtfgraph.rs:319-340); [indices] is built as in [with_ordering]. *)
Definition df_orient (G : graph) : res dtfgraph :=
  r ← degeneracy G;
  let ind := og_index_map r.1.2 in
  fold_res (λ h v,
    Nv ← neighbours G v;
    iv ← unwrap (ind !! v);
    let h := df_add_vertex h v in
    fold_res (λ h u,
      iu ← unwrap (ind !! u);
      if iu <? iv then df_add_arc h u v 1 else df_add_arc h v u 1) Nv h) (vertices G) df_new.

(** Models [in_neighbours_with_weights] (dtfgraph.rs:403-411). *)
Definition df_in_weights (g : dtfgraph) (u : N) : res (gmap N nat) :=
  fold_res (λ m d, l ← df_in_at g u d; Ok (foldl (λ m v, <[v := d]> m) m l)) (seq 1 (df_depth g)) ∅.

(** Models [small_distance] (dtfgraph.rs:415-439); [None] as a running minimum stands for
    [u32::MAX].  Simplified: weights are unbounded, so [Nv[x]+d] does not overflow. *)
Definition df_small_distance (g : dtfgraph) (u v : N) : res (option nat) :=
  let omin (o : option nat) (k : nat) : option nat := Some (match o with Some d => min d k | None => k end) in
  dist ← df_arc_depth g u v;
  o ← df_arc_depth g v u;
  let dist : option nat := match o with Some d => omin dist d | None => dist end in
  Nv ← df_in_weights g v;
  dist ← fold_res (λ dist d, l ← df_in_at g u d;
      Ok (foldl (λ dist x, match Nv !! x with Some k => omin dist (k + d) | None => dist end) dist l))
    (seq 1 (df_depth g)) dist;
  Ok (match dist with Some d => if df_depth g <? d then None else Some d | None => None end).

(** Models [_trans_tails] (dtfgraph.rs:483-504). *)
Definition df_trans_tails (g : dtfgraph) (u : N) (depth : nat) : res (gset N) :=
  cands ← fold_res (λ c wy,
      let wx := depth - wy in
      ys ← df_in_at g u wy;
      fold_res (λ c y, xs ← df_in_at g y wx; Ok (c ∪ list_to_set xs)) ys c) (seq 1 (depth - 1)) (∅ : gset N);
  Nu ← df_in_neighbours g u;
  Ok (cands ∖ ({[u]} ∪ list_to_set Nu)).

(** Models [_frat_pairs] (dtfgraph.rs:506-525). *)
Definition df_frat_pairs (g : dtfgraph) (u : N) (depth : nat) : res (gset (N * N)) :=
  _ ← assert_res (negb (depth =? 2));
  d1 ← sub_checked depth 1;
  fold_res (λ acc wx,
    wy ← sub_checked depth wx;
    xs ← df_in_at g u wx;
    fold_res (λ acc x,
      ys ← df_in_at g u wy;
      Ok (foldl (λ acc y, if negb (df_adjacent g x y) then {[(x, y)]} ∪ acc else acc) acc ys)) xs acc)
    [1; d1] (∅ : gset (N * N)).

(** Models [_frat_pairs2] (dtfgraph.rs:527-539). *)
Definition df_frat_pairs2 (g : dtfgraph) (u : N) : res (gset (N * N)) :=
  l ← df_in_at g u 1;
  Ok (foldl (λ acc p, if negb (df_adjacent g p.1 p.2) then {[(p.1, p.2)]} ∪ acc else acc) (∅ : gset (N * N)) (combinations2 l)).

(** Models the collecting loop of [augment] (dtfgraph.rs:455-468). *)
Definition df_collect (g : dtfgraph) (depth : nat) : res (gset (N * N) * editgraph) :=
  fold_res (λ s u,
    X ← df_trans_tails g u depth;
    P ← (if depth =? 2 then df_frat_pairs2 g u else df_frat_pairs g u depth);
    h ← fold_res (λ h p, r ← eg_add_edge h p.1 p.2; Ok r.1) (hash_iter 41 P) s.2;
    Ok (s.1 ∪ list_to_set ((λ x, (x, u)) <$> hash_iter 42 X), h)) (df_vertices g) (∅, eg_new).

(** Models the body of the [while] loop of [augment] (dtfgraph.rs:448-479); [od] is the call
    [DTFGraph::orient_deep(&fGraph, frat_depth)]. *)
Definition df_augment_step (od : editgraph → res dtfgraph) (g : dtfgraph) : res dtfgraph :=
  let g := df_reserve g (df_depth g + 1) in
  s ← df_collect g (df_depth g);
  s' ← fold_res (λ s a,
      h ← df_add_arc s.1 a.1 a.2 (df_depth s.1);
      r ← eg_remove_edge s.2 a.1 a.2;
      Ok (h, r.1)) (hash_iter 43 s.1) (g, s.2);
  fd ← od s'.2;
  es ← df_arcs_list fd (Some 1);
  fold_res (λ h a, df_add_arc h a.1 a.2 (df_depth h)) es s'.1.

(** Models the [while] loop of [augment] (dtfgraph.rs:447-480). *)
Fixpoint df_augment_loop (od : editgraph → res dtfgraph) (fuel : nat) (g : dtfgraph) (depth : nat) : res dtfgraph :=
  match fuel with
  | 0 => Diverge
  | S fuel =>
      if df_depth g <? depth then g ← df_augment_step od g; df_augment_loop od fuel g depth
      else Ok g
  end.

(** Models [orient_deep] (dtfgraph.rs:289-299).  The inner call [augment(depth, 0)] calls
    [orient_deep(_, 0)], which is [orient]. *)
Definition df_orient_deep (G : graph) (depth : nat) : res dtfgraph :=
  g ← df_orient G;
  if depth <=? 1 then Ok g
  else
    g ← df_augment_loop (λ h, df_orient (eg_graph h)) (S depth) g depth;
    u ← df_to_undirected g;
    r ← df_orient (eg_graph u);
    es ← edges G;
    df_edge_subgraph r es.

(** Models [augment] (dtfgraph.rs:446-481). *)
Definition df_augment (g : dtfgraph) (depth frat_depth : nat) : res dtfgraph :=
  df_augment_loop (λ h, df_orient_deep (eg_graph h) frat_depth) (S depth) g depth.

(** Models the computation of [order] (dtfgraph.rs:568-574).  Simplified: the keys are
    unbounded, the code uses [i64]. *)
Definition df_order (g : dtfgraph) : res (list N) :=
  let n := df_num_vertices g in
  keyed ← mapM (λ u, i ← df_in_degree g u; d ← df_degree g u; Ok (i * n + d, u)) (df_vertices g);
  Ok (merge_sort key_ge keyed).*2.

(** The pairs [(u, r)] visited by [for r in 1..(radius+1) { for u in self.in_neighbours_at(v, r) {..} }]
    (dtfgraph.rs:584-588, 600-601, 611-612). *)
Definition df_weighted (g : dtfgraph) (v : N) (radius : nat) : res (list (N * nat)) :=
  ls ← mapM (M:=res) (λ r, l ← df_in_at g v r; Ok ((λ u, (u, r)) <$> (l : list N))) (seq 1 radius);
  Ok (concat ls).

(** The state of the main loop (dtfgraph.rs:563-565). *)
Record dd_state := DdState { dd_dom : gset N; dd_dist : gmap N nat; dd_cnt : gmap N nat }.

(** Models the update of an in-neighbour of a new member (dtfgraph.rs:602-616). *)
Definition dd_update (g : dtfgraph) (radius cutoff : nat) (st : dd_state) (p : N * nat) : res dd_state :=
  let '(u, r) := p in
  c ← unwrap (dd_cnt st !! u);
  dist ← ds_relax (dd_dist st) u r;
  let st := DdState (dd_dom st) dist (<[u := S c]> (dd_cnt st)) in
  if (cutoff <? S c) && negb (bool_decide (u ∈ dd_dom st)) then
    ps ← df_weighted g u radius;
    dist ← fold_res (λ m q, ds_relax m q.1 q.2) ps (<[u := 0]> (dd_dist st));
    Ok (DdState ({[u]} ∪ dd_dom st) dist (dd_cnt st))
  else Ok st.

(** Models one iteration of the main loop (dtfgraph.rs:582-618). *)
Definition dd_step (g : dtfgraph) (radius cutoff : nat) (st : dd_state) (v : N) : res dd_state :=
  ps ← df_weighted g v radius;
  dist ← fold_res (λ m p, du ← unwrap (m !! p.1); ds_relax m v (p.2 + du)) ps (dd_dist st);
  dv ← unwrap (dist !! v);
  if dv <=? radius then Ok (DdState (dd_dom st) dist (dd_cnt st))
  else fold_res (dd_update g radius cutoff) ps (DdState ({[v]} ∪ dd_dom st) (<[v := 0]> dist) (dd_cnt st)).

(** Models [DTFGraph::domset] (dtfgraph.rs:559-623); returns the set and the augmented graph.
    [(2*radius).pow(2)] is checked u32 arithmetic. *)
Definition df_domset (g : dtfgraph) (radius : nat) : res (gset N * dtfgraph) :=
  g ← df_augment g radius 2;
  _ ← assert_res (N.of_nat (2 * radius) * N.of_nat (2 * radius) <? u32_mod)%N;
  order ← df_order g;
  let st := DdState ∅ (foldl (λ m v, <[v := radius + 1]> m) ∅ order) (foldl (λ m v, <[v := 0]> m) ∅ order) in
  st ← fold_res (dd_step g radius (2 * radius * (2 * radius))) order st;
  Ok (dd_dom st, g).

(** ** The view [DTFLayer] (dtfgraph.rs:36-108) of a graph at a depth *)
(** Models [DTFLayer::num_edges] (dtfgraph.rs:55-57). *)
Definition dl_num_edges (g : dtfgraph) (depth : nat) : res nat := df_num_arcs_at g depth.
(** Models [DTFLayer::adjacent] (dtfgraph.rs:63-65). *)
Definition dl_adjacent (g : dtfgraph) (depth : nat) (u v : N) : bool := df_adjacent g u v.
(** Models [DTFLayer::degree] (dtfgraph.rs:67-69). *)
Definition dl_degree (g : dtfgraph) (depth : nat) (u : N) : res nat := df_degree g u.
(** Models [DTFLayer::has_arc] (dtfgraph.rs:83-85). *)
Definition dl_has_arc (g : dtfgraph) (depth : nat) (u v : N) : res bool := df_has_arc_at g u v depth.
(** Models [DTFLayer::in_degree] (dtfgraph.rs:87-89). *)
Definition dl_in_degree (g : dtfgraph) (depth : nat) (u : N) : res nat := df_in_degree g u.
(** Models [DTFLayer::out_degree] (dtfgraph.rs:91-93). *)
Definition dl_out_degree (g : dtfgraph) (depth : nat) (u : N) : res nat := df_out_degree g u.
(** Models [DTFLayer::in_neighbours] (dtfgraph.rs:105-107). *)
Definition dl_in_neighbours (g : dtfgraph) (depth : nat) (u : N) : res (list N) := df_in_at g u depth.

End with_iter.
