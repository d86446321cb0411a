(** Model of algorithms/graph.rs: [components], [degeneracy], [is_bipartite]. *)
From Verif Require Import Base M_Graph M_Iterators.

(** ** Union-find *)
(** The external crate union-find-rs is not modelled; [DisjointSets<u32>] as used by
    [components] (algorithms/graph.rs:42-70) is represented by the list of its sets.
    Simplified: [find_set] returns the whole set instead of its representative, which
    is only compared for equality. *)
Definition dsets := list (gset N).
(** Models [DisjointSets::make_set] as used at algorithms/graph.rs:47. *)
Definition ds_make_set (ds : dsets) (v : N) : dsets := {[v]} :: ds.
(** Models [DisjointSets::find_set] as used at algorithms/graph.rs:55. *)
Definition ds_find (ds : dsets) (v : N) : option (gset N) :=
  head (filter (λ X, v ∈ X) ds).
(** Models [DisjointSets::union] as used at algorithms/graph.rs:61. *)
Definition ds_union (ds : dsets) (X Y : gset N) : dsets :=
  (X ∪ Y) :: filter (λ Z, Z ≠ X ∧ Z ≠ Y) ds.

Section with_iter.
Context `{HashIter}.

(** Models [components] (algorithms/graph.rs:41-70); the order in which DisjointSets
    yields its sets is a hash order. *)
Definition components (G : graph) : res (list (gset N)) :=
  let ds := foldl ds_make_set [] (vertices G) in
  es ← edges G;
  ds ← fold_res (λ ds e,
         X ← unwrap (ds_find ds e.1);
         Y ← unwrap (ds_find ds e.2);
         if bool_decide (X = Y) then Ok ds else Ok (ds_union ds X Y)) es ds;
  Ok (hash_iter 0 (list_to_set ds : gset (gset N))).

(** ** Degeneracy *)
(** Models [calc_index] (algorithms/graph.rs:78-84): [next_power_of_two] followed by
    [trailing_zeros] is [log2_up] (with value 0 at 0 and 1).
    Simplified: degrees below 2^31, so that [i as i32] is not negative. *)
Definition calc_index (i : nat) : nat := min i 128 + Nat.log2_up (i + 1 - 128).

(** Models the state of the main loop (algorithms/graph.rs:73-100). *)
Record dgn_st := DgnSt {
  dgn_order : list N;           (* in the order of pushes *)
  dgn_deg : gmap N nat;
  dgn_core : gmap N nat;
  dgn_buckets : gmap nat (gset N);
  dgn_num : nat;
}.

(** Models the [while] loop looking for a non-empty bucket (algorithms/graph.rs:104-106).
    [fuel] exceeds every key of [buckets], so running out of fuel means that the loop of
    the code never ends. *)
Fixpoint dgn_find (buckets : gmap nat (gset N)) (fuel d : nat) : res nat :=
  match fuel with
  | O => Diverge
  | S fuel => match buckets !! d with
              | Some X => if bool_decide (X = ∅) then dgn_find buckets fuel (d + 1) else Ok d
              | None => dgn_find buckets fuel (d + 1)
              end
  end.
(** A bound on the keys of [buckets] (see [dgn_find], algorithms/graph.rs:104-106). *)
Definition dgn_fuel (buckets : gmap nat (gset N)) : nat := S (foldr max 0 (elements (dom buckets))).

(** Models the body of the loop over the neighbours (algorithms/graph.rs:117-139). *)
Definition dgn_update (core : gmap N nat) (s : gmap N nat * gmap nat (gset N)) (u : N)
    : res (gmap N nat * gmap nat (gset N)) :=
  match core !! u with
  | Some _ => Ok s
  | None =>
      du ← unwrap (s.1 !! u);
      du' ← sub_checked du 1;
      let old_index := calc_index du in
      let new_index := calc_index du' in
      let buckets :=
        if old_index =? new_index then s.2
        else map_upd ∅ (λ X, {[u]} ∪ X) new_index (alter (λ X, X ∖ {[u]}) old_index s.2) in
      Ok (<[u := du']> s.1, buckets)
  end.

(** Models one iteration of the main loop (algorithms/graph.rs:101-142); [t] selects the
    hash order used by [iter().next()]. *)
Definition dgn_step (G : graph) (s : dgn_st) (t : nat) : res dgn_st :=
  d ← dgn_find (dgn_buckets s) (dgn_fuel (dgn_buckets s)) 0;
  let core_num := max (dgn_num s) d in
  X ← unwrap (dgn_buckets s !! d);
  v ← unwrap (head (hash_iter t X));
  let buckets := <[d := X ∖ {[v]}]> (dgn_buckets s) in
  Nv ← neighbours G v;
  r ← fold_res (dgn_update (dgn_core s)) Nv (dgn_deg s, buckets);
  Ok (DgnSt (dgn_order s ++ [v]) r.1 (<[v := core_num]> (dgn_core s)) r.2 core_num).

(** Models the initial buckets (algorithms/graph.rs:90-97). *)
Definition dgn_init (G : graph) : gmap N nat * gmap nat (gset N) :=
  foldl (λ s v, (<[v := degree G v]> s.1, map_upd ∅ (λ X, {[v]} ∪ X) (calc_index (degree G v)) s.2))
    (∅, ∅) (vertices G).

(** Models the lower bound computed at the end (algorithms/graph.rs:145-151). *)
Definition dgn_lower (core_num : nat) : nat :=
  let ix := calc_index core_num in
  if ix <=? 129 then ix else 129 + 2 ^ (ix - 129 - 1).

(** Models [degeneracy] (algorithms/graph.rs:72-156). *)
Definition degeneracy (G : graph) : res (nat * nat * list N * gmap N nat) :=
  let i := dgn_init G in
  s ← fold_res (dgn_step G) (seq 0 (num_vertices G)) (DgnSt [] i.1 ∅ i.2 0);
  Ok (dgn_lower (dgn_num s), dgn_num s, reverse (dgn_order s), dgn_core s).

(** ** Bipartiteness *)
(** Models [enum BipartiteWitness] (algorithms/graph.rs:30-36). *)
Inductive bip_witness :=
  | Bipartition (L R : gset N)
  | OddCycle (c : list N).

(** Models the colouring loop for one root (algorithms/graph.rs:176-197): the stack
    [col_queue] with its top at the head.  Every pop consumes one unit of fuel. *)
Fixpoint bip_loop (G : graph) (fuel : nat) (stack : list (bool * N * N))
    (cols : gmap N (bool * N)) (unproc : gset N)
    : res (gmap N (bool * N) * gset N * option (N * N * N)) :=
  match fuel with
  | O => Diverge
  | S fuel =>
      match stack with
      | [] => Ok (cols, unproc, None)
      | (col, v, parent) :: stack =>
          match cols !! v with
          | Some (curr_col, other_parent) =>
              if bool_decide (curr_col ≠ col) then Ok (cols, unproc, Some (parent, v, other_parent))
              else bip_loop G fuel stack cols (unproc ∖ {[v]})
          | None =>
              Nv ← neighbours G v;
              bip_loop G fuel (reverse ((λ u, (negb col, u, v)) <$> Nv) ++ stack)
                (<[v := (col, parent)]> cols) (unproc ∖ {[v]})
          end
      end
  end.

(** Number of pops that suffices for one root (algorithms/graph.rs:176-197). *)
Definition bip_fuel (G : graph) : nat :=
  2 + foldr (λ v n, match neighbours G v with Ok l => length l | _ => 0 end + n) 0 (vertices G).

(** Models the outer loop over the roots (algorithms/graph.rs:169-198). *)
Fixpoint bip_outer (G : graph) (fuel : nat) (cols : gmap N (bool * N)) (unproc : gset N)
    : res (gmap N (bool * N) * option (N * N * N)) :=
  if bool_decide (unproc = ∅) then Ok (cols, None) else
  match fuel with
  | O => Diverge
  | S fuel =>
      u ← unwrap (head (hash_iter fuel unproc));
      r ← bip_loop G (bip_fuel G) [(true, u, u)] cols (unproc ∖ {[u]});
      match r with
      | (cols, unproc, None) => bip_outer G fuel cols unproc
      | (cols, _, Some c) => Ok (cols, Some c)
      end
  end.

(** Models the loops following parents to the root (algorithms/graph.rs:205-213, 218-226):
    the vertices after [last] on the path. *)
Fixpoint bip_path (cols : gmap N (bool * N)) (fuel : nat) (last : N) : res (list N) :=
  match fuel with
  | O => Diverge
  | S fuel =>
      par ← unwrap (cols !! last);
      if (par.2 =? last)%N then Ok []
      else l ← bip_path cols fuel par.2; Ok (par.2 :: l)
  end.

(** Models the construction of the odd cycle (algorithms/graph.rs:201-252). *)
Definition bip_cycle (cols : gmap N (bool * N)) (parent1 v parent2 : N) : res (list N) :=
  let fuel := S (size cols) in
  l1 ← bip_path cols fuel parent1;
  let path1 := v :: parent1 :: l1 in
  l2 ← bip_path cols fuel parent2;
  let path2 := parent2 :: l2 in
  _ ← assert_res (bool_decide (last path1 = last path2));
  if (1 <? length path1) && bool_decide (head path1 = last path1) then Ok (removelast path1)
  else if (1 <? length path2) && bool_decide (head path2 = last path2) then Ok (removelast path2)
  else Ok (path1 ++ reverse (removelast path2)).

(** Models [is_bipartite] (algorithms/graph.rs:159-266). *)
Definition is_bipartite (G : graph) : res bip_witness :=
  let unproc : gset N := collect_set (vertices G) in
  r ← bip_outer G (size unproc) ∅ unproc;
  match r.2 with
  | Some (parent1, v, parent2) => c ← bip_cycle r.1 parent1 v parent2; Ok (OddCycle c)
  | None =>
      Ok (Bipartition (dom (filter (λ kv, kv.2.1 = true) r.1))
                      (dom (filter (λ kv, kv.2.1 = false) r.1)))
  end.

End with_iter.
