(** Property theorems C27-C33: operations.rs and compare.rs.
    Each group is followed by a concrete case meeting the hypotheses. *)
From Verif Require Import Base Spec M_Graph M_Iterators M_EditGraph M_Operations S_Graph S_Multi
  P_EditGraph P_EditGraph2 P_Graph P_Iterators P_Adds P_Generators P_Unions P_Operations P_Degeneracy P_Subdivide
  T_EditGraph T_Algorithms.

Section with_iter.
Context `{HI : HashIter}.

(** ** C27 *)
Theorem C27_invert (G : graph) : graph_wf G →
  ∃ h, invert G = Ok h ∧ eg_reachable h ∧
    (∀ x, eg_contains h x = true ↔ contains G x = true) ∧
    (∀ x y, eg_adjacent h x y = true ↔
       contains G x = true ∧ contains G y = true ∧ x ≠ y ∧ adjacent G x y = false).
Proof.
  intros Hwf. destruct (invert_spec G Hwf) as (h & Hok & Hh & HV & HE). exists h.
  split_and!; [done|by apply eg_reachable_wf|done|]. intros x y. rewrite (HE x y). unfold vtx, adj.
  destruct (adjacent G x y); naive_solver.
Qed.

Theorem C27_invert_twice (G : graph) : graph_wf G →
  ∃ h h2, invert G = Ok h ∧ invert (eg_graph h) = Ok h2 ∧
    (∀ x, eg_contains h2 x = true ↔ contains G x = true) ∧
    (∀ x y, eg_adjacent h2 x y = true ↔ adjacent G x y = true ∧ x ≠ y).
Proof.
  intros Hwf. destruct (invert_spec G Hwf) as (h & Hok & Hh & HV & HE).
  destruct (invert_spec (eg_graph h) (eg_graph_wf h Hh)) as (h2 & Hok2 & Hh2 & HV2 & HE2).
  exists h, h2. split_and!; [done|done| |].
  - intros x. rewrite (HV2 x). apply HV.
  - intros x y. rewrite (HE2 x y).
    change (vtx (eg_graph h) x) with (ev h x). change (vtx (eg_graph h) y) with (ev h y).
    change (adj (eg_graph h) x y) with (ea h x y). rewrite (HV x), (HV y), (HE x y).
    destruct (adjacent G x y) eqn:Hxy; unfold adj; rewrite Hxy.
    + split; [naive_solver|]. intros [_ Hne]. split_and!; [by eapply (wf_adj_vtx _ Hwf)| |done|naive_solver].
      by eapply (wf_adj_vtx _ Hwf), (wf_adj_sym _ Hwf).
    + split; [|naive_solver]. intros (? & ? & ? & Hn). destruct Hn. naive_solver.
Qed.

(** ** C28 *)
Theorem C28_merge (G H : graph) : graph_wf G → graph_wf H →
  ∃ h, merge_graphs G H = Ok h ∧ eg_reachable h ∧
    (∀ x, eg_contains h x = true ↔ contains G x = true ∨ contains H x = true) ∧
    (∀ x y, eg_adjacent h x y = true ↔ adjacent G x y = true ∨ adjacent H x y = true).
Proof.
  intros HG HH. destruct (merge_spec G H HG HH) as (h & Hok & Hh & HV & HE). exists h.
  split_and!; [done|by apply eg_reachable_wf|done|done].
Qed.

(** ** C29 *)
Theorem C29_intersect (G H : graph) : graph_wf G → graph_wf H →
  ∃ h, intersect_graphs G H = Ok h ∧ eg_reachable h ∧
    (∀ x, eg_contains h x = true ↔ contains G x = true ∧ contains H x = true) ∧
    (∀ x y, eg_adjacent h x y = true ↔ adjacent G x y = true ∧ adjacent H x y = true).
Proof.
  intros HG HH. destruct (intersect_spec G H HG HH) as (h & Hok & Hh & HV & HE). exists h.
  split_and!; [done|by apply eg_reachable_wf|done|done].
Qed.

(** ** C30: the [i]-th edge of an enumeration [es] of the edges becomes the path through
    the ids [b+i*k .. b+(i+1)*k), where [b] exceeds all labels of the input. *)
Theorem C30_subdivide (G : graph) (k : N) : graph_wf G → loopless G →
  (∀ v, contains G v = true → (v + 1 + N.of_nat (num_edges G) * k < 2 ^ 32)%N) →
  ∃ h es b, subdivide G k = Ok h ∧ eg_reachable h ∧
    NoDup es ∧ (∀ u v, (u, v) ∈ es ↔ (u <= v)%N ∧ adjacent G u v = true) ∧
    (∀ v, contains G v = true → (v < b)%N) ∧
    (∀ x, eg_contains h x = true ↔
       contains G x = true ∨ (b <= x ∧ x < b + N.of_nat (num_edges G) * k)%N) ∧
    (∀ x y, eg_adjacent h x y = true ↔ ∃ i u v, es !! i = Some (u, v) ∧
       let path := u :: range (b + N.of_nat i * k) (b + N.of_nat (S i) * k) ++ [v] in
       consec path x y ∨ consec path y x) ∧
    eg_num_vertices h = num_vertices G + N.to_nat k * num_edges G ∧
    eg_num_edges h = (N.to_nat k + 1) * num_edges G ∧
    (∀ v, contains G v = true → eg_degree h v = degree G v) ∧
    (∀ v, eg_contains h v = true → contains G v = false → eg_degree h v = 2).
Proof.
  intros Hwf Hl Hov. change (2 ^ 32)%N with 4294967296%N in Hov.
  destruct (subdivide_spec G k Hwf Hov) as (h & es & b & Hok & Hh & Hnd & Hlen & Hes & Hb & HV & HE).
  destruct (subdivide_counts G k Hwf Hl Hov h Hok) as (Hn & Hm & Hd & Hi).
  exists h, es, b. split_and!; try done; [by apply eg_reachable_wf| |].
  - intros x y. rewrite (HE x y). unfold sub_path. split.
    + intros (i & [u v] & ? & ?). by exists i, u, v.
    + intros (i & u & v & ? & ?). by exists i, (u, v).
  - intros v Hv Hc. apply Hi; [done|]. unfold vtx. by rewrite Hc.
Qed.

Theorem C30_subdivide_0 (G : graph) : graph_wf G →
  (∀ v, contains G v = true → (v + 1 < 2 ^ 32)%N) →
  ∃ h, subdivide G 0 = Ok h ∧ eg_reachable h ∧ (∀ x, eg_contains h x = contains G x) ∧
    (∀ x y, eg_adjacent h x y = adjacent G x y).
Proof.
  intros Hwf Hov. change (2 ^ 32)%N with 4294967296%N in Hov.
  destruct (subdivide_spec G 0 Hwf) as (h & es & b & Hok & Hh & Hnd & Hlen & Hes & Hb & HV & HE).
  { intros v Hv. specialize (Hov v Hv). lia. }
  exists h. split_and!; [done|by apply eg_reachable_wf| |].
  - intros x. apply eq_true_iff_eq. rewrite (HV x). unfold vtx. split; [|auto]. intros [?|?]; [done|lia].
  - intros x y. apply eq_true_iff_eq. by eapply ea_0.
Qed.

(** ** C31.  Full claim: additionally [eg_contains h x = true] for every [x] in the domain of the
    map; refuted below.  What holds: the vertices are the non-isolated ones. *)
Theorem C31_cartesian_partial (G H : graph) : graph_wf G → graph_wf H →
  (N.of_nat (num_vertices G * num_vertices H) <= 2 ^ 32)%N →
  ∃ h inv, cartesian_product G H = Ok (h, inv) ∧ eg_reachable h ∧
    (∀ u v, (∃ x, inv !! x = Some (u, v)) ↔ contains G u = true ∧ contains H v = true) ∧
    (∀ x y p, inv !! x = Some p → inv !! y = Some p → x = y) ∧
    (∀ x, eg_contains h x = true ↔ ∃ u v, inv !! x = Some (u, v) ∧
       ((∃ w, adjacent G u w = true) ∨ (∃ w, adjacent H v w = true))) ∧
    (∀ x y, eg_adjacent h x y = true ↔ ∃ u v u' v',
       inv !! x = Some (u, v) ∧ inv !! y = Some (u', v') ∧
       ((u = u' ∧ adjacent H v v' = true) ∨ (v = v' ∧ adjacent G u u' = true))).
Proof.
  intros HG HH Hsz. destruct (cartesian_spec G H HG HH Hsz) as (h & inv & Hok & Hh & Hinv & Hinj & HV & HE).
  assert (∀ x u v, inv !! x = Some (u, v) → vtx G u ∧ vtx H v) as Hdom.
  { intros x u v Hx. apply (Hinv (u, v)). eauto. }
  exists h, inv. split_and!; [done|by apply eg_reachable_wf| |done| |].
  - intros u v. apply (Hinv (u, v)).
  - intros x. rewrite (HV x). split.
    + intros ([u v] & [u' v'] & Hx & _ & _ & [[_ ?]|[_ ?]]); exists u, v; eauto.
    + intros (u & v & Hx & [[w ?]|[w ?]]); destruct (Hdom _ _ _ Hx); [exists (u, v), (w, v)|exists (u, v), (u, w)]; unfold cart_adj; auto 10.
  - intros x y. rewrite (HE x y). split.
    + intros ([u v] & [u' v'] & Hx & Hy & _ & _ & ?). exists u, v, u', v'. auto.
    + intros (u & v & u' & v' & Hx & Hy & ?). exists (u, v), (u', v'). destruct (Hdom _ _ _ Hx). unfold cart_adj. auto 10.
Qed.

(** The full claim when one of the graphs has no isolated vertex. *)
Theorem C31_cartesian_no_isolates (G H : graph) : graph_wf G → graph_wf H →
  (N.of_nat (num_vertices G * num_vertices H) <= 2 ^ 32)%N →
  (∀ u, contains G u = true → ∃ w, adjacent G u w = true) ∨
  (∀ v, contains H v = true → ∃ w, adjacent H v w = true) →
  ∃ h inv, cartesian_product G H = Ok (h, inv) ∧ eg_reachable h ∧
    (∀ u v, (∃ x, inv !! x = Some (u, v)) ↔ contains G u = true ∧ contains H v = true) ∧
    (∀ x y p, inv !! x = Some p → inv !! y = Some p → x = y) ∧
    (∀ x, eg_contains h x = true ↔ is_Some (inv !! x)) ∧
    (∀ x y, eg_adjacent h x y = true ↔ ∃ u v u' v',
       inv !! x = Some (u, v) ∧ inv !! y = Some (u', v') ∧
       ((u = u' ∧ adjacent H v v' = true) ∨ (v = v' ∧ adjacent G u u' = true))).
Proof.
  intros HG HH Hsz Hiso. destruct (C31_cartesian_partial G H HG HH Hsz) as (h & inv & Hok & Hh & Hinv & Hinj & HV & HE).
  exists h, inv. split_and!; try done. intros x. rewrite (HV x). split.
  - intros (u & v & -> & _). eauto.
  - intros [[u v] Hx]. destruct (proj1 (Hinv u v)) as [Hu Hv]; [eauto|]. exists u, v. split; [done|].
    destruct Hiso as [Hiso|Hiso]; [left|right]; by apply Hiso.
Qed.

(** ** C32.  Same remark as for C31. *)
Theorem C32_lexicographic_partial (G H : graph) : graph_wf G → graph_wf H →
  (N.of_nat (num_vertices G * num_vertices H) <= 2 ^ 32)%N →
  ∃ h inv, lexicographic_product G H = Ok (h, inv) ∧ eg_reachable h ∧
    (∀ u v, (∃ x, inv !! x = Some (u, v)) ↔ contains G u = true ∧ contains H v = true) ∧
    (∀ x y p, inv !! x = Some p → inv !! y = Some p → x = y) ∧
    (∀ x, eg_contains h x = true ↔ ∃ u v, inv !! x = Some (u, v) ∧
       ((∃ w, adjacent G u w = true) ∨ (∃ w, adjacent H v w = true))) ∧
    (∀ x y, eg_adjacent h x y = true ↔ ∃ u v u' v',
       inv !! x = Some (u, v) ∧ inv !! y = Some (u', v') ∧
       (adjacent H v v' = true ∨ (v = v' ∧ adjacent G u u' = true))).
Proof.
  intros HG HH Hsz. destruct (lexicographic_spec G H HG HH Hsz) as (h & inv & Hok & Hh & Hinv & Hinj & HV & HE).
  assert (∀ x u v, inv !! x = Some (u, v) → vtx G u ∧ vtx H v) as Hdom.
  { intros x u v Hx. apply (Hinv (u, v)). eauto. }
  exists h, inv. split_and!; [done|by apply eg_reachable_wf| |done| |].
  - intros u v. apply (Hinv (u, v)).
  - intros x. rewrite (HV x). split.
    + intros ([u v] & [u' v'] & Hx & _ & _ & _ & [?|[_ ?]]); exists u, v; eauto.
    + intros (u & v & Hx & [[w ?]|[w ?]]); destruct (Hdom _ _ _ Hx); [exists (u, v), (w, v)|exists (u, v), (u, w)]; unfold lex_adj; cbn.
      * split_and!; auto. eapply (wf_adj_vtx _ HG), (wf_adj_sym _ HG). done.
      * split_and!; auto.
  - intros x y. rewrite (HE x y). split.
    + intros ([u v] & [u' v'] & Hx & Hy & _ & _ & _ & ?). exists u, v, u', v'. auto.
    + intros (u & v & u' & v' & Hx & Hy & ?). exists (u, v), (u', v'). destruct (Hdom _ _ _ Hx), (Hdom _ _ _ Hy). unfold lex_adj. auto 10.
Qed.

Theorem C32_lexicographic_no_isolates (G H : graph) : graph_wf G → graph_wf H →
  (N.of_nat (num_vertices G * num_vertices H) <= 2 ^ 32)%N →
  (∀ u, contains G u = true → ∃ w, adjacent G u w = true) ∨
  (∀ v, contains H v = true → ∃ w, adjacent H v w = true) →
  ∃ h inv, lexicographic_product G H = Ok (h, inv) ∧ eg_reachable h ∧
    (∀ u v, (∃ x, inv !! x = Some (u, v)) ↔ contains G u = true ∧ contains H v = true) ∧
    (∀ x y p, inv !! x = Some p → inv !! y = Some p → x = y) ∧
    (∀ x, eg_contains h x = true ↔ is_Some (inv !! x)) ∧
    (∀ x y, eg_adjacent h x y = true ↔ ∃ u v u' v',
       inv !! x = Some (u, v) ∧ inv !! y = Some (u', v') ∧
       (adjacent H v v' = true ∨ (v = v' ∧ adjacent G u u' = true))).
Proof.
  intros HG HH Hsz Hiso. destruct (C32_lexicographic_partial G H HG HH Hsz) as (h & inv & Hok & Hh & Hinv & Hinj & HV & HE).
  exists h, inv. split_and!; try done. intros x. rewrite (HV x). split.
  - intros (u & v & -> & _). eauto.
  - intros [[u v] Hx]. destruct (proj1 (Hinv u v)) as [Hu Hv]; [eauto|]. exists u, v. split; [done|].
    destruct Hiso as [Hiso|Hiso]; [left|right]; by apply Hiso.
Qed.

(** Isolated product vertices are in the returned map but not in the returned graph. *)
Theorem C31_vertex_set_refuted : ∃ G H h inv x,
  graph_wf G ∧ graph_wf H ∧
  cartesian_product G H = Ok (h, inv) ∧ inv !! x = Some (0, 0)%N ∧ eg_contains h x = false.
Proof.
  destruct (eg_independent_spec 1) as (Hw & HV & HE). set (g := eg_independent 1) in *.
  pose proof (eg_graph_wf g Hw) as Hg.
  assert (num_vertices (eg_graph g) = 1) as Hn by done.
  assert (N.of_nat (num_vertices (eg_graph g) * num_vertices (eg_graph g)) <= 2 ^ 32)%N as Hsz by (rewrite Hn; lia).
  assert (vtx (eg_graph g) 0%N) as H0 by done.
  destruct (C31_cartesian_partial _ _ Hg Hg Hsz) as (h & inv & Hok & _ & Hinv & _ & HVh & _).
  destruct (proj2 (Hinv 0%N 0%N)) as [x Hx]; [done|].
  exists (eg_graph g), (eg_graph g), h, inv, x. split_and!; try done.
  destruct (eg_contains h x) eqn:E; [|done]. apply HVh in E as (u & v & _ & [[w Hw']|[w Hw']]); by destruct (HE _ _ Hw').
Qed.
Theorem C32_vertex_set_refuted : ∃ G H h inv x,
  graph_wf G ∧ graph_wf H ∧
  lexicographic_product G H = Ok (h, inv) ∧ inv !! x = Some (0, 0)%N ∧ eg_contains h x = false.
Proof.
  destruct (eg_independent_spec 1) as (Hw & HV & HE). set (g := eg_independent 1) in *.
  pose proof (eg_graph_wf g Hw) as Hg.
  assert (num_vertices (eg_graph g) = 1) as Hn by done.
  assert (N.of_nat (num_vertices (eg_graph g) * num_vertices (eg_graph g)) <= 2 ^ 32)%N as Hsz by (rewrite Hn; lia).
  assert (vtx (eg_graph g) 0%N) as H0 by done.
  destruct (C32_lexicographic_partial _ _ Hg Hg Hsz) as (h & inv & Hok & _ & Hinv & _ & HVh & _).
  destruct (proj2 (Hinv 0%N 0%N)) as [x Hx]; [done|].
  exists (eg_graph g), (eg_graph g), h, inv, x. split_and!; try done.
  destruct (eg_contains h x) eqn:E; [|done]. apply HVh in E as (u & v & _ & [[w Hw']|[w Hw']]); by destruct (HE _ _ Hw').
Qed.

End with_iter.

(** ** C33 *)
Theorem C33_compare (G H : graph) : graph_wf G → graph_wf H →
  let sub A B := (∀ v, contains A v = true → contains B v = true) ∧
                 (∀ u v, adjacent A u v = true → adjacent B u v = true) in
  ∃ r, compare_subgraph G H = Ok r ∧
    (r = RelEq ↔ sub G H ∧ sub H G) ∧ (r = RelSub ↔ sub G H ∧ ¬ sub H G) ∧
    (r = RelSup ↔ ¬ sub G H ∧ sub H G) ∧ (r = RelIncomp ↔ ¬ sub G H ∧ ¬ sub H G).
Proof.
  intros HG HH sub. destruct (compare_spec G H HG HH) as (r & Hr & Hs). exists r. split; [done|].
  change (is_subgraph G H) with (sub G H) in Hs. change (is_subgraph H G) with (sub H G) in Hs.
  generalize dependent (sub G H). generalize dependent (sub H G). clear. intros P Q.
  destruct r; intros [H1 H2]; split_and!; (split; [done|]); try done; intros [H3 H4]; exfalso; auto.
Qed.

Local Existing Instance std_iter.

(** Concrete cases for the theorems above: the hypotheses hold of [ex_g2] (path 0-1-2 plus
    isolated 5) and [ex_g] (edges 12, 23, loop 33, isolated 7). *)
Example ex_C27 : (r ← invert (eg_graph ex_g2); edges (eg_graph r)) = Ok [(0, 5); (0, 2); (1, 5); (2, 5)]%N.
Proof. vm_compute. done. Qed.
Example ex_C28 : (r ← merge_graphs (eg_graph ex_g) (eg_graph ex_g2); edges (eg_graph r))
  = Ok [(0, 1); (1, 2); (3, 3); (2, 3)]%N.
Proof. vm_compute. done. Qed.
Example ex_C29 : (r ← intersect_graphs (eg_graph ex_g) (eg_graph ex_g2);
  es ← edges (eg_graph r); Ok (vertices (eg_graph r), es)) = Ok ([1; 2], [(1, 2)])%N.
Proof. vm_compute. done. Qed.
Example ex_C30 : (∀ v, contains (eg_graph ex_g2) v = true →
    (v + 1 + N.of_nat (num_edges (eg_graph ex_g2)) * 2 < 2 ^ 32)%N) ∧
  (r ← subdivide (eg_graph ex_g2) 2; edges (eg_graph r))
  = Ok [(0, 6); (1, 7); (1, 8); (2, 9); (8, 9); (6, 7)]%N.
Proof.
  split; [|vm_compute; done]. intros v Hv. destruct ex_algorithms_reachable as (_ & Hwf & _).
  apply (wf_vertices _ Hwf) in Hv. vm_compute in Hv.
  repeat (apply elem_of_cons in Hv as [->|Hv]; [vm_compute; done|]). set_solver.
Qed.
Example ex_C31 : (r ← cartesian_product (eg_graph ex_g2) (eg_graph ex_g2);
  Ok (eg_num_vertices r.1, eg_num_edges r.1, size r.2)) = Ok (15, 16, 16).
Proof. vm_compute. done. Qed.
Example ex_C32 : (r ← lexicographic_product (eg_graph ex_g2) (eg_graph ex_g2);
  Ok (eg_num_vertices r.1, eg_num_edges r.1, size r.2)) = Ok (15, 40, 16).
Proof. vm_compute. done. Qed.
Example ex_C33 : compare_subgraph (eg_graph ex_g) (eg_graph ex_g2) = Ok RelIncomp ∧
  (r ← merge_graphs (eg_graph ex_g) (eg_graph ex_g2); compare_subgraph (eg_graph ex_g) (eg_graph r)) = Ok RelSub.
Proof. vm_compute. done. Qed.

Print Assumptions C27_invert.
Print Assumptions C27_invert_twice.
Print Assumptions C28_merge.
Print Assumptions C29_intersect.
Print Assumptions C30_subdivide.
Print Assumptions C30_subdivide_0.
Print Assumptions C31_cartesian_partial.
Print Assumptions C31_cartesian_no_isolates.
Print Assumptions C32_lexicographic_partial.
Print Assumptions C32_lexicographic_no_isolates.
Print Assumptions C31_vertex_set_refuted.
Print Assumptions C32_vertex_set_refuted.
Print Assumptions C33_compare.
