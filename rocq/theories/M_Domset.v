(** Model of the dominating-set and scattered-set algorithms of algorithms/lineargraph.rs
    (lines 247-600). *)
From Verif Require Import Base M_Graph M_Iterators M_EditGraph M_Operations M_OrdGraph M_Linear M_Colouring.

(** The sort key of [order] (lineargraph.rs:274, 392): decreasing
    [left_degree * n + degree].  Simplified: the keys are unbounded, the code uses [i64]. *)
Definition key_ge (p q : nat * N) : Prop := q.1 ≤ p.1.
Global Instance key_ge_dec p q : Decision (key_ge p q).
Proof. unfold key_ge. apply _. Defined.

(** Models the computation of [order] (lineargraph.rs:268-275, 389-393). *)
Definition ds_order (L : lgraph) : res (list N) :=
  let n := num_vertices L in
  keyed ← mapM (λ u, d ← left_degree L u; Ok (d * n + degree L u, u)) (vertices L);
  Ok (merge_sort key_ge keyed).*2.

(** The state of the main loop (lineargraph.rs:262-265, 396-399). *)
Record ds_state := DsState {
  ds_dom : gset N;
  ds_scat : gset N;
  ds_dd : gmap N nat;
  ds_cnt : gmap N nat;
}.

(** Models [*m.get_mut(v).unwrap() = u32::min(m[v], k)] (lineargraph.rs:295, 312, 321, 416, 433, 442). *)
Definition ds_relax (m : gmap N nat) (v : N) (k : nat) : res (gmap N nat) :=
  d ← unwrap (m !! v); Ok (<[v := min d k]> m).

Section with_iter.
Context `{HashIter}.

(** Models the initialisation of [dom_distance] and [dom_counter] (lineargraph.rs:280-290, 401-411);
    [undominated = radius+1] (lineargraph.rs:276, 384). *)
Definition ds_init (target : gset N) (radius : nat) (order : list N) : ds_state :=
  DsState ∅ ∅
    (foldl (λ m v, <[v := if bool_decide (v ∈ target) then radius + 1 else radius]> m) ∅ order)
    (foldl (λ m v, <[v := 0]> m) ∅ order).

(** Models the update of the in-neighbours of a new member [v] of the dominating set
    (lineargraph.rs:309-324, 430-445). *)
Definition ds_update (W : gmap N (gmap N nat)) (cutoff : nat) (st : ds_state) (p : N * nat) : res ds_state :=
  let '(u, dist) := p in
  c ← unwrap (ds_cnt st !! u);
  dd ← ds_relax (ds_dd st) u dist;
  let st := DsState (ds_dom st) (ds_scat st) dd (<[u := S c]> (ds_cnt st)) in
  if (cutoff <? S c) && negb (bool_decide (u ∈ ds_dom st)) then
    Wu ← unwrap (W !! u);
    dd ← fold_res (λ dd q, ds_relax dd q.1 q.2) (map_iter 20 Wu) (<[u := 0]> (ds_dd st));
    Ok (DsState ({[u]} ∪ ds_dom st) (ds_scat st) dd (ds_cnt st))
  else Ok st.

(** Models one iteration of the main loop (lineargraph.rs:292-325, 413-446).  Simplified: the sum
    [dist + dom_distance[u]] is not checked for overflow; it is at most [2*radius + 1]. *)
Definition ds_step (W : gmap N (gmap N nat)) (target : gset N) (radius cutoff : nat) (st : ds_state) (v : N) : res ds_state :=
  Wv ← unwrap (W !! v);
  dd ← fold_res (λ dd p, du ← unwrap (dd !! p.1); ds_relax dd v (p.2 + du)) (map_iter 21 Wv) (ds_dd st);
  dv ← unwrap (dd !! v);
  if dv <=? radius then Ok (DsState (ds_dom st) (ds_scat st) dd (ds_cnt st))
  else
    _ ← assert_res (bool_decide (v ∈ target));
    let st := DsState ({[v]} ∪ ds_dom st) ({[v]} ∪ ds_scat st) (<[v := 0]> dd) (ds_cnt st) in
    fold_res (ds_update W cutoff) (map_iter 22 Wv) st.

(** Models the main loop (lineargraph.rs:280-325, 401-446). *)
Definition ds_loop (W : gmap N (gmap N nat)) (target : gset N) (radius cutoff : nat) (order : list N) : res ds_state :=
  fold_res (ds_step W target radius cutoff) order (ds_init target radius order).

(** Models the collection of out-neighbours (lineargraph.rs:335-341, 448-454). *)
Definition ds_out (W : gmap N (gmap N nat)) (scat : gset N) : res (gmap N (gmap N nat)) :=
  fold_res (λ O x,
    Wx ← unwrap (W !! x);
    Ok (foldl (λ O p, map_upd ∅ (<[x := p.2]>) p.1 O) O (map_iter 23 Wx))) (hash_iter 24 scat) ∅.

(** Models the construction of the auxiliary graph [H] (lineargraph.rs:343-363 with [strict = true],
    where a distance above [2*radius] fails an assertion, and 456-478 with [strict = false], where
    such a pair is skipped). *)
Definition ds_conflict (strict : bool) (W : gmap N (gmap N nat)) (scat : gset N) (radius : nat) : res editgraph :=
  O ← ds_out W scat;
  let h := (eg_add_vertices eg_new (hash_iter 25 scat)).1 in
  h ← fold_res (λ h wO,
      h ← fold_res (λ h (pq : (N * nat) * (N * nat)),
              if pq.1.2 + pq.2.2 <=? 2 * radius
              then r ← eg_add_edge h pq.1.1 pq.2.1; Ok r.1 else Ok h)
            (combinations2 (map_iter 26 wO.2)) h;
      if bool_decide (wO.1 ∈ scat) then
        fold_res (λ h p,
            if p.2 <=? 2 * radius then r ← eg_add_edge h wO.1 p.1; Ok r.1
            else if strict then Panic else Ok h) (map_iter 27 wO.2) h
      else Ok h) (map_iter 28 O) h;
  _ ← assert_res (eg_num_vertices h =? size scat);
  Ok h.

(** Models [OrdGraph::by_degeneracy(&H)] followed by [colour_greedy] (lineargraph.rs:367-368, 482-483). *)
Definition ds_colours (h : editgraph) : res (gmap N N) :=
  oh ← og_by_degeneracy (eg_graph h);
  colour_greedy (og_lgraph oh).

(** Models [domset_with_target] (lineargraph.rs:251-371); [2*radius] and its square are checked
    u32 arithmetic. *)
Definition domset_with_target (L : lgraph) (radius : nat) (witness : bool) (target : list N)
    : res (gset N * gmap N nat * option (gmap N N)) :=
  let target : gset N := collect_set target in
  if g_is_empty L || bool_decide (target = ∅) then Ok (∅, ∅, if witness then Some ∅ else None)
  else
    _ ← assert_res (N.of_nat (2 * radius) * N.of_nat (2 * radius) <? u32_mod)%N;
    let cutoff := 2 * radius * (2 * radius) in
    order ← ds_order L;
    W ← wreach_sets L radius;
    st ← ds_loop W target radius cutoff order;
    if negb witness then Ok (ds_dom st, ds_dd st, None)
    else
      W2 ← wreach_sets L (2 * radius);
      h ← ds_conflict true W2 (ds_scat st) radius;
      colours ← ds_colours h;
      Ok (ds_dom st, ds_dd st, Some colours).

(** Models [domset] (lineargraph.rs:247-249). *)
Definition domset (L : lgraph) (radius : nat) (witness : bool) : res (gset N * gmap N nat * option (gmap N N)) :=
  domset_with_target L radius witness (vertices L).

(** Models [small_distance] (lineargraph.rs:573-600); [None] as a running minimum stands for
    [u32::MAX]; [Wx[w] + Wy[w]] is checked u32 arithmetic. *)
Definition small_distance (W : gmap N (gmap N nat)) (distance : nat) (x y : N) : res (option nat) :=
  if bool_decide (x = y) then Ok (Some 0)
  else
    Wx ← unwrap (W !! x);
    Wy ← unwrap (W !! y);
    let omin (o : option nat) (k : nat) : option nat :=
      Some (match o with Some d => min d k | None => k end) in
    let dist : option nat := Wx !! y in
    let dist := match Wy !! x with Some k => omin dist k | None => dist end in
    dist ← fold_res (λ dist p,
        match Wy !! p.1 with
        | None => Ok dist
        | Some k => _ ← assert_res (N.of_nat (p.2 + k) <? u32_mod)%N; Ok (omin dist (p.2 + k))
        end) (map_iter 29 Wx) dist;
    Ok (match dist with Some d => if distance <? d then None else Some d | None => None end).

(** Models the loops of [small_distance_sets] (lineargraph.rs:556-566): [inr] is the early
    [return Some(0)]. *)
Definition sds_step (W : gmap N (gmap N nat)) (distance : nat) (x : N) (acc : option nat + unit) (y : N)
    : res (option nat + unit) :=
  match acc with
  | inr _ => Ok acc
  | inl dist =>
      if bool_decide (x = y) then Ok (inr ())
      else
        d ← small_distance W distance x y;
        Ok (inl (match d, dist with
                 | Some d, Some e => Some (min e d)
                 | Some d, None => Some d
                 | None, _ => dist
                 end))
  end.

(** Models [small_distance_sets] (lineargraph.rs:550-571). *)
Definition small_distance_sets (W : gmap N (gmap N nat)) (distance : nat) (X Y : gset N) : res (option nat) :=
  r ← fold_res (λ acc x, fold_res (sds_step W distance x) (hash_iter 30 Y) acc) (hash_iter 31 X) (inl None);
  Ok (match r with inl dist => dist | inr _ => Some 0 end).

(** Models the loop [while !target.is_empty()] of [scattered_colouring] (lineargraph.rs:395-490). *)
Fixpoint sc_rounds (fuel : nat) (W : gmap N (gmap N nat)) (radius cutoff : nat) (order : list N)
    (target : gset N) (colouring : gmap N N) : res (gmap N N) :=
  match fuel with
  | 0 => Diverge
  | S fuel =>
      if bool_decide (target = ∅) then Ok colouring
      else
        st ← ds_loop W target radius cutoff order;
        h ← ds_conflict false W (ds_scat st) radius;
        colours ← ds_colours h;
        colouring ← vc_disjoint_extend ty_u32 colouring colours;
        _ ← assert_res (size colours =? size (ds_scat st));
        sc_rounds fuel W radius cutoff order
          (filter (λ u, colouring !! u = None) target) colouring
  end.

(** The key of [classes.sort_by_key] (lineargraph.rs:502). *)
Definition smaller (X Y : gset N) : Prop := size X ≤ size Y.
Global Instance smaller_dec X Y : Decision (smaller X Y).
Proof. unfold smaller. apply _. Defined.

(** Models the loop over [j] (lineargraph.rs:514-533): [i] and [j] are positions in [classes];
    the flag is [improved_current_set]. *)
Definition sc_try (W : gmap N (gmap N nat)) (distance radius i : nat) (st : list (gset N) * bool) (j : nat)
    : res (list (gset N) * bool) :=
  let '(classes, b) := st in
  set2 ← unwrap (classes !! j);
  if bool_decide ((set2 : gset N) = ∅) then Ok st
  else
    set1 ← unwrap (classes !! i);
    d ← small_distance_sets W distance set1 set2;
    if match d with Some d => d <? 2 * radius | None => false end then Ok st
    else Ok (<[j := ∅]> (<[i := set1 ∪ set2]> classes), true).

(** Models the body of the loop over [i] (lineargraph.rs:506-539); the state is [classes],
    [unimprovable], [improved]. *)
Definition sc_class (W : gmap N (gmap N nat)) (distance radius : nat)
    (st : list (gset N) * list (gset N) * bool) (i : nat) : res (list (gset N) * list (gset N) * bool) :=
  let '(classes, un, improved) := st in
  set1 ← unwrap (classes !! i);
  if bool_decide ((set1 : gset N) = ∅) then Ok st
  else
    r ← fold_res (sc_try W distance radius i) (seq (S i) (length classes - S i)) (classes, false);
    let '(classes, b) := (r : list (gset N) * bool) in
    if b : bool then Ok (classes, un, true)
    else
      set1 ← unwrap (classes !! i);
      Ok (<[i := ∅]> classes, un ++ [set1], improved).

(** Models the loop [while improved] and the final lines (lineargraph.rs:493-545). *)
Fixpoint sc_merge (fuel : nat) (W : gmap N (gmap N nat)) (distance radius : nat) (classes un : list (gset N))
    : res (list (gset N)) :=
  match fuel with
  | 0 => Diverge
  | S fuel =>
      let classes := merge_sort smaller (filter (λ X, X ≠ ∅) classes) in
      st ← fold_res (sc_class W distance radius) (seq 0 (length classes)) (classes, un, false);
      let '(classes, un, improved) := (st : list (gset N) * list (gset N) * bool) in
      if improved : bool then sc_merge fuel W distance radius classes un
      else Ok (un ++ filter (λ X, X ≠ ∅) classes)
  end.

(** Models [scattered_colouring] (lineargraph.rs:373-546); [distance.pow(2)] is checked u32
    arithmetic; [fuel] bounds the two [while] loops. *)
Definition scattered_colouring (fuel : nat) (L : lgraph) (distance : nat) (target : list N) : res (list (gset N)) :=
  let target : gset N := collect_set target in
  if g_is_empty L || bool_decide (target = ∅) then Ok []
  else
    let radius := distance / 2 in
    W ← wreach_sets L distance;
    _ ← assert_res (N.of_nat distance * N.of_nat distance <? u32_mod)%N;
    order ← ds_order L;
    colouring ← sc_rounds fuel W radius (distance * distance) order target ∅;
    sc_merge fuel W distance radius (map_iter 32 (vm_invert colouring)).*2 [].

End with_iter.
