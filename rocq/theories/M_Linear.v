(** Model of the reachability, clique and colouring algorithms of
    algorithms/lineargraph.rs (lines 110-243, 602-662). *)
From Verif Require Import Base M_Graph M_Iterators M_OrdGraph.

Section with_iter.
Context `{HashIter}.

(** Models one iteration of the loop over [d] in [right_bfs] (lineargraph.rs:122-130):
    [cur] is layer [d-1]; the result is layer [d] and the new set [seen]. *)
Definition rb_layer (L : lgraph) (iroot : nat) (cur seen : gset N) : res (gset N * gset N) :=
  fold_res (λ st u,
    ns ← neighbours L u;
    fold_res (λ st v,
      iv ← index_of L v;
      Ok (if (iroot <? iv) && negb (bool_decide (v ∈ st.2))
          then ({[v]} ∪ st.1, {[v]} ∪ st.2) else st)) ns st)
    (hash_iter 0 cur) (∅, seen).

(** Models the loop over [d] in [right_bfs] (lineargraph.rs:119-131); [n] iterations remain.
    Simplified: the layers are returned as a list instead of being written into [res]. *)
Fixpoint rb_loop (L : lgraph) (iroot n : nat) (cur seen : gset N) : res (list (gset N)) :=
  match n with
  | 0 => Ok []
  | S n =>
      st ← rb_layer L iroot cur seen;
      rest ← rb_loop L iroot n st.1 st.2;
      Ok (st.1 :: rest)
  end.

(** Models [right_bfs] (lineargraph.rs:110-134); [dist+1] is checked u32 arithmetic. *)
Definition right_bfs (L : lgraph) (root : N) (dist : nat) : res (list (gset N)) :=
  iroot ← index_of L root;
  _ ← assert_res (N.of_nat dist + 1 <? u32_mod)%N;
  rest ← rb_loop L iroot dist {[root]} {[root]};
  Ok ({[root]} :: rest).

(** Models [res.entry(x).or_insert(d)] (lineargraph.rs:149). *)
Definition or_insert {A} (x : N) (a : A) (m : gmap N A) : gmap N A :=
  match m !! x with Some _ => m | None => <[x := a]> m end.

(** Models [sreach_set] (lineargraph.rs:136-156); [r-1] is checked u32 arithmetic. *)
Definition sreach_set (L : lgraph) (u : N) (r : nat) : res (gmap N nat) :=
  r1 ← sub_checked r 1;
  bfs ← right_bfs L u r1;
  iu ← index_of L u;
  fold_res (λ m dl,
    fold_res (λ m v,
      xs ← left_neighbours L v;
      fold_res (λ m x,
        ix ← index_of L x;
        Ok (if ix <? iu then or_insert x (S dl.1) m else m)) xs m)
      (hash_iter 1 dl.2) m)
    (imap pair bfs) ∅.

(** Models the initial loop of [wreach_sets] (lineargraph.rs:160-162) and of [wreach_sizes]
    (lineargraph.rs:176-178). *)
Definition const_map {A} (L : lgraph) (a : A) : gmap N A :=
  foldl (λ m u, <[u := a]> m) ∅ (vertices L).

(** Models [wreach_sets] (lineargraph.rs:158-172). *)
Definition wreach_sets (L : lgraph) (r : nat) : res (gmap N (gmap N nat)) :=
  fold_res (λ m u,
    bfs ← right_bfs L u r;
    fold_res (λ m dl,
      fold_res (λ m v,
        _ ← assert_res (negb (bool_decide (v = u)));
        w ← unwrap (m !! v);
        Ok (<[v := <[u := S dl.1]> w]> m))
        (hash_iter 2 dl.2) m)
      (imap pair (drop 1 bfs)) m)
    (vertices L) (const_map L (∅ : gmap N nat)).

(** Models [wreach_sizes] (lineargraph.rs:174-188). *)
Definition wreach_sizes (L : lgraph) (r : nat) : res (gmap N nat) :=
  fold_res (λ m u,
    bfs ← right_bfs L u r;
    Ok (foldl (λ m X, foldl (λ m v, map_upd 0 S v m) m (hash_iter 3 X)) m (drop 1 bfs)))
    (vertices L) (const_map L 0).

(** Models [sreach_sets] (lineargraph.rs:190-197). *)
Definition sreach_sets (L : lgraph) (r : nat) : res (gmap N (gmap N nat)) :=
  fold_res (λ m u, s ← sreach_set L u r; Ok (<[u := s]> m)) (vertices L) ∅.

(** Models [sreach_sizes] (lineargraph.rs:199-206). *)
Definition sreach_sizes (L : lgraph) (r : nat) : res (gmap N nat) :=
  fold_res (λ m u, s ← sreach_set L u r; Ok (<[u := size s]> m)) (vertices L) ∅.

(** ** Cliques *)

(** Models the search for the pivot (lineargraph.rs:622-632): the last position whose vertex is
    in [maybe] or [exclude], and that vertex. *)
Definition bk_pivot (vs : list N) (maybe exclude : gset N) : option (nat * N) :=
  last (filter (λ p : nat * N, p.2 ∈ maybe ∨ p.2 ∈ exclude) (imap pair vs)).

(** Models the base case of [bk_pivot_count] (lineargraph.rs:603-619).  A [BTreeSet] is a set. *)
Definition bk_report (v : N) (include : gset N) (results : gset (gset N)) : gset (gset N) :=
  let results := {[include]} ∪ results in
  if 1 <? size include then results ∖ {[include ∖ {[v]}]} else results.

(** Models [bk_pivot_count] (lineargraph.rs:602-662); [fuel] bounds the recursion depth. *)
Fixpoint bk_pivot_count (fuel : nat) (L : lgraph) (v : N) (vs : list N) (include maybe exclude : gset N)
    (results : gset (gset N)) : res (gset (gset N)) :=
  match fuel with
  | 0 => Diverge
  | S fuel =>
      if bool_decide (maybe = ∅) && bool_decide (exclude = ∅) then Ok (bk_report v include results)
      else
        p ← unwrap (bk_pivot vs maybe exclude);
        let '(iu, u) := (p : nat * N) in
        let left := filter (λ x, adjacent L u x = true) (take iu vs) in
        let left_set : gset N := list_to_set left in
        st ← fold_res (λ st w,
            let '(include, maybe, exclude, results) := (st : gset N * gset N * gset N * gset (gset N)) in
            if negb (bool_decide (w ∈ maybe)) || bool_decide (w ∈ left_set) then Ok st
            else
              results ← bk_pivot_count fuel L v left ({[w]} ∪ include) (maybe ∩ left_set) (exclude ∩ left_set) results;
              Ok (({[w]} ∪ include) ∖ {[w]}, maybe ∖ {[w]}, {[w]} ∪ exclude, results))
          (reverse (take (S iu) vs)) (include, maybe, exclude, results);
        Ok st.2
  end.

(** Models [count_max_cliques] (lineargraph.rs:208-219); the iterator [left_neighbourhoods]
    (iterators.rs:436-458) yields [(v, left_neighbours v)] in vertex order. *)
Definition count_max_cliques (L : lgraph) : res nat :=
  results ← fold_res (λ results v,
      ns ← left_neighbours L v;
      bk_pivot_count (S (length ns)) L v ns {[v]} (list_to_set ns) ∅ results)
    (vertices L) ∅;
  Ok (size results).

(** ** Greedy colouring *)

(** Models [colour_greedy] (lineargraph.rs:221-243); [colours[x]] panics if [x] has no colour. *)
Definition colour_greedy (L : lgraph) : res (gmap N N) :=
  st ← fold_res (λ st v,
      let '(colours, used) := (st : gmap N N * list N) in
      ns ← left_neighbours L v;
      ncols ← mapM (λ x, unwrap (colours !! x)) ns;
      if length ncols =? length used then
        let c := N.of_nat (length used) in
        Ok (<[v := c]> colours, used ++ [c])
      else
        Ok (match head (filter (λ c, c ∉ ncols) used) with
            | Some c => <[v := c]> colours
            | None => colours
            end, used))
    (vertices L) (∅, []);
  Ok st.1.

End with_iter.
