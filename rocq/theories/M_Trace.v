(** Model of datastructures/sreach_trace_oracle.rs.  Bit vectors are lists of Booleans of the
    length of the context; [FxHashMap]s with bit vectors or vertex lists as keys are maps. *)
From Verif Require Import Base M_Graph M_Iterators M_EditGraph M_Algorithms M_OrdGraph M_DegenGraph M_Linear.

(** Models [struct SReachContext] (sreach_trace_oracle.rs:17-21). *)
Record sctx := SCtx {
  sc_context : list N;
  sc_indices : gmap N nat;
  sc_right : gmap (list bool) nat;
}.

(** Models [SReachContext::new] (sreach_trace_oracle.rs:24-32). *)
Definition sc_new (context : list N) : sctx :=
  SCtx context (foldl (λ m p, <[p.2 := p.1]> m) ∅ (imap pair context)) ∅.

(** Models [to_bitset] (sreach_trace_oracle.rs:83-92); setting a bit out of range panics. *)
Definition sc_to_bitset (c : sctx) (set : list N) : res (list bool) :=
  fold_res (λ bs u,
    match sc_indices c !! u with
    | Some ix => _ ← assert_res (ix <? length bs); Ok (<[ix := true]> bs)
    | None => Ok bs
    end) set (replicate (length (sc_context c)) false).

(** Models [singleton_bitset] (sreach_trace_oracle.rs:74-81). *)
Definition sc_singleton (c : sctx) (u : N) : res (list bool) :=
  let bs := replicate (length (sc_context c)) false in
  match sc_indices c !! u with
  | Some ix => _ ← assert_res (ix <? length bs); Ok (<[ix := true]> bs)
  | None => Ok bs
  end.

(** The indices visited by [iter_ones] (sreach_trace_oracle.rs:96). *)
Definition iter_ones (bs : list bool) : list nat := (filter (λ p : nat * bool, p.2 = true) (imap pair bs)).*1.

(** Models [to_vecset] (sreach_trace_oracle.rs:94-100). *)
Definition sc_to_vecset (c : sctx) (bs : list bool) : res (list N) :=
  mapM (λ ix, unwrap (sc_context c !! ix)) (iter_ones bs).

(** Models [insert] (sreach_trace_oracle.rs:38-41). *)
Definition sc_insert (c : sctx) (neighs : list N) : res sctx :=
  key ← sc_to_bitset c neighs;
  Ok (SCtx (sc_context c) (sc_indices c) (map_upd 0 (λ k, k + 1) key (sc_right c))).

(** Models the operator [&] on bit vectors of equal length (sreach_trace_oracle.rs:51, 66). *)
Definition bits_and (a b : list bool) : list bool := zip_with andb a b.

Section with_iter.
Context `{HashIter}.

(** Models [count_neighbours] (sreach_trace_oracle.rs:43-55). *)
Definition sc_count_neighbours (c : sctx) (target : list N) : res (gmap (list N) nat) :=
  mask ← sc_to_bitset c target;
  let counts := foldl (λ m p, map_upd 0 (λ k, k + p.2) (bits_and mask p.1) m) (∅ : gmap (list bool) nat) (map_iter 50 (sc_right c)) in
  fold_res (λ m p, s ← sc_to_vecset c p.1; Ok (<[s := p.2]> m)) (map_iter 51 counts) (∅ : gmap (list N) nat).

(** Models [get_sets] (sreach_trace_oracle.rs:34-36). *)
Definition sc_get_sets (c : sctx) : res (gmap (list N) nat) := sc_count_neighbours c (sc_context c).

(** Models [count_first_intersection] (sreach_trace_oracle.rs:59-72). *)
Definition sc_count_first (c : sctx) (target : list N) : res nat :=
  mask ← sc_to_bitset c target;
  l ← sub_checked (length (sc_context c)) 1;
  a ← unwrap (sc_context c !! l);
  anchor ← sc_singleton c a;
  Ok (foldl (λ r p, if bool_decide (bits_and mask p.1 = anchor) then r + p.2 else r) 0 (map_iter 52 (sc_right c))).

(** Models [dedup] (sreach_trace_oracle.rs:115): keep the first of consecutive equal items. *)
Fixpoint dedup (l : list N) : list N :=
  match l with
  | x :: (y :: _) as l' => if (x =? y)%N then dedup l' else x :: dedup l'
  | _ => l
  end.

(** Models the first loop of [for_graph] (sreach_trace_oracle.rs:111-118).  Here and below
    [sort_by_key(|x| graph.index_of(x))] is [sort_by_index]; simplified: the key is evaluated for
    every item, also if there is only one. *)
Definition so_contexts (g : degengraph) : res (gmap N sctx) :=
  fold_res (λ m x,
    s ← sreach_set (dg_lgraph g) x 2;
    cs ← sort_by_index (dg_indices g) (hash_iter 53 (dom s) ++ [x]);
    Ok (<[x := sc_new (dedup cs)]> m)) (vertices (dg_graph g)) ∅.

(** Models [SReachTraceOracle::for_graph] (sreach_trace_oracle.rs:108-133); the oracle is its
    map of contexts. *)
Definition so_for_graph (g : degengraph) : res (gmap N sctx) :=
  m ← so_contexts g;
  fold_res (λ m x,
    Nx ← dg_left_slice g x;
    Nx ← sort_by_index (dg_indices g) Nx;
    fold_res (λ m i,
      anchor ← unwrap (Nx !! (i - 1));
      ctx ← unwrap (m !! anchor);
      ctx ← sc_insert ctx (take i Nx);
      Ok (<[anchor := ctx]> m)) (seq 1 (length Nx)) m) (vertices (dg_graph g)) m.

(** Models [debug_assert!(inner.is_sorted_by_key(|x| graph.index_of(x)))]
    (sreach_trace_oracle.rs:147, 164, 226). *)
Fixpoint sorted_nat (l : list nat) : bool :=
  match l with
  | i :: (j :: _) as l' => (i <=? j) && sorted_nat l'
  | _ => true
  end.
Definition assert_sorted (g : degengraph) (l : list N) : res unit :=
  ks ← mapM (dg_index_of g) l;
  assert_res (sorted_nat ks).

(** Models the body of the inner loop of [compute_traces] (sreach_trace_oracle.rs:160-182);
    [unwrap_unchecked] on a missing entry (undefined behaviour) is modelled as [Panic]. *)
Definition tr_right_set (g : degengraph) (traces : gmap (list N) nat) (p : list N * nat) : res (gmap (list N) nat) :=
  let '(s, count) := p in
  if bool_decide (s = []) then Ok traces
  else
    _ ← assert_sorted g s;
    let traces := map_upd 0 (λ k, k + count) s traces in
    let pre := take (length s - 1) s in
    k ← unwrap (traces !! pre);
    k ← sub_checked k count;
    Ok (<[pre := k]> traces).

(** Models the first loop of [compute_traces] (sreach_trace_oracle.rs:153-183). *)
Definition tr_right (m : gmap N sctx) (g : degengraph) (inner : list N) (traces : gmap (list N) nat) : res (gmap (list N) nat) :=
  fold_res (λ traces i,
    anchor ← unwrap (inner !! (i - 1));
    ctx ← unwrap (m !! anchor);
    counts ← sc_count_neighbours ctx (take i inner);
    fold_res (tr_right_set g) (map_iter 54 counts) traces) (seq 1 (length inner)) traces.

(** Models the collection of [left_neighbours] (sreach_trace_oracle.rs:188-192, 241-245). *)
Definition tr_left_set (g : degengraph) (inner : list N) : res (gset N) :=
  fold_res (λ X u, l ← dg_left_slice g u; Ok ({[u]} ∪ (X ∪ list_to_set l))) inner (∅ : gset N).

(** Models one iteration of the last loop of [compute_traces] (sreach_trace_oracle.rs:194-218). *)
Definition tr_left_vertex (g : degengraph) (inner : list N) (traces : gmap (list N) nat) (y : N) : res (gmap (list N) nat) :=
  let t := foldl (λ t u, if adjacent (dg_graph g) u y then (t.1 ++ [u], if dg_adjacent_ordered g u y then t.2 ++ [u] else t.2) else t)
             (([], []) : list N * list N) inner in
  let traces := if bool_decide (y ∈ inner) then traces else map_upd 0 (λ k, k + 1) t.1 traces in
  k ← unwrap (traces !! t.2);
  k ← sub_checked k 1;
  Ok (<[t.2 := k]> traces).

(** Models [compute_traces] (sreach_trace_oracle.rs:135-221). *)
Definition so_compute_traces (m : gmap N sctx) (inner : list N) (g : degengraph) : res (gmap (list N) nat) :=
  _ ← assert_sorted g inner;
  traces ← tr_right m g inner {[ [] := num_vertices (dg_graph g) ]};
  left ← tr_left_set g inner;
  fold_res (tr_left_vertex g inner) (hash_iter 55 left) traces.

(** Models one iteration of the last loop of [compute_neighbour_count]
    (sreach_trace_oracle.rs:247-265). *)
Definition nc_left_vertex (g : degengraph) (inner : list N) (r : nat) (u : N) : res nat :=
  l ← dg_left_slice g u;
  if existsb (λ w, bool_decide (w ∈ inner)) l
  then if bool_decide (u ∈ inner) then sub_checked r 1 else Ok r
  else if bool_decide (u ∈ inner) then Ok r else Ok (r + 1).

(** Models [compute_neighbour_count] (sreach_trace_oracle.rs:223-268). *)
Definition so_neighbour_count (m : gmap N sctx) (inner : list N) (g : degengraph) : res nat :=
  _ ← assert_sorted g inner;
  r ← fold_res (λ r i,
    anchor ← unwrap (inner !! (i - 1));
    ctx ← unwrap (m !! anchor);
    k ← sc_count_first ctx (take i inner);
    Ok (r + k)) (seq 1 (length inner)) 0;
  left ← tr_left_set g inner;
  fold_res (nc_left_vertex g inner) (hash_iter 56 left) r.

(** Models [is_shattered] (sreach_trace_oracle.rs:270-291); [2usize.pow] panics from 2^64 on. *)
Definition so_is_shattered (m : gmap N sctx) (inner : list N) (k : nat) (g : degengraph) : res bool :=
  inner ← sort_by_index (dg_indices g) inner;
  traces ← so_compute_traces m inner g;
  _ ← assert_res (length inner <=? k);
  e ← sub_checked k (length inner);
  _ ← assert_res (e <? 64);
  _ ← assert_res (length inner <? 64);
  let multiplicity := (2 ^ N.of_nat e)%N in
  if (N.of_nat (size traces) <? 2 ^ N.of_nat (length inner))%N then Ok false
  else Ok (forallb (λ p, negb (N.of_nat p.2 <? multiplicity)%N) (map_iter 57 traces)).
End with_iter.
