(** Property theorems C77-C79: graphs with loops as input of degeneracy(), OrdGraph and
    DegenGraph.  Concrete cases follow the theorems. *)
From Verif Require Import Base Spec M_Graph M_Iterators M_EditGraph M_Algorithms M_OrdGraph M_DegenGraph M_DTF S_Graph S_Linear
  P_EditGraph P_EditGraph2 P_Graph P_Iterators P_Degeneracy P_OrdGraph P_OrdGraph2 P_DegenGraph P_DegenGraph2 P_Loops P_Loops2
  T_EditGraph T_Algorithms T_OrdGraph T_DegenGraph Examples.

(** Statement vocabulary (not code): how often [v] occurs in [l]. *)
Definition occurrences (v : N) (l : list N) : nat := length (filter (λ x, x = v) l).

Section with_iter.
Context `{HI : HashIter}.

(** ** C77.  Full claim: degeneracy() never panics and lists every vertex exactly once, also in
    the presence of loops.  This is false (the two theorems marked refuted below); what holds is
    that it terminates and that the order has the right length, consists of vertices, and repeats
    only vertices with a loop, at most once each. *)
Theorem C77_degeneracy_loops_partial (G : graph) : graph_wf G →
  degeneracy G ≠ Diverge ∧
  ∀ lo up order core, degeneracy G = Ok (lo, up, order, core) →
    length order = num_vertices G ∧ (∀ v, v ∈ order → contains G v = true) ∧
    (∀ v, is_Some (core !! v) ↔ v ∈ order) ∧
    (∀ v, occurrences v order ≤ 2) ∧
    (∀ v, adjacent G v v = false → occurrences v order ≤ 1) ∧
    (NoDup order → ∀ v, contains G v = true → v ∈ order).
Proof.
  intros Hwf. destruct (lp_degeneracy G Hwf) as [Hp|(s & Hs & Hi & Hlen)]; [by rewrite Hp|].
  rewrite Hs. split; [done|]. intros lo up order core [= <- <- <- <-].
  assert (∀ v, occurrences v (reverse (dgn_order s)) = occ v (dgn_order s)) as Ho.
  { intros v. unfold occurrences, occ. apply Permutation_length. by rewrite reverse_Permutation. }
  split_and!.
  - by rewrite reverse_length.
  - intros v. rewrite elem_of_reverse. apply (lp_vtx _ _ Hi).
  - intros v. rewrite elem_of_reverse. apply (lp_core _ _ Hi).
  - intros v. rewrite Ho. apply (lp_occ _ _ Hi).
  - intros v Hv. rewrite Ho. apply (lp_occ _ _ Hi). unfold adj. congruence.
  - intros Hnd v Hv%(wf_vertices _ Hwf).
    assert (reverse (dgn_order s) ≡ₚ vertices G) as ->; [|done].
    apply submseteq_Permutation_length_eq; [by rewrite reverse_length, <- (wf_num_vertices _ Hwf), Hlen|].
    apply NoDup_submseteq; [done|]. intros x Hx. rewrite elem_of_reverse in Hx. apply (wf_vertices _ Hwf). exact (lp_vtx _ _ Hi x Hx).
Qed.

(** ** C78 *)
Theorem C78_with_ordering_loops (G : graph) (order : list N) : graph_wf G → NoDup order →
  (∀ u v, adjacent G u v = true → u ∈ order) →
  ∃ g, og_with_ordering G order = Ok g ∧
    vertices (og_graph g) = order ∧
    num_vertices (og_graph g) = length order ∧ num_edges (og_graph g) = num_edges G ∧
    (∀ u, contains (og_graph g) u = true ↔ u ∈ order) ∧
    (∀ u v, adjacent (og_graph g) u v = adjacent G u v) ∧
    (∀ u, u ∈ order → contains G u = true → degree (og_graph g) u = degree G u) ∧
    (∀ u i, index_of (og_lgraph g) u = Ok i ↔ order !! i = Some u) ∧
    (∀ u, u ∈ order → ∃ l r n, left_neighbours (og_lgraph g) u = Ok l ∧ og_right_neighbours g u = Ok r ∧
       neighbours (og_graph g) u = Ok n ∧
       lists_in_order order (λ v, adjacent G u v = true ∧ (v = u ∨ before order v u)) l ∧
       lists_in_order order (λ v, adjacent G u v = true ∧ (v = u ∨ before order u v)) r ∧
       degree (og_graph g) u = length l + length r ∧ right_degree (og_lgraph g) u = length r ∧
       (∀ v, v ≠ u → occurrences v n = if adjacent G u v then 1 else 0) ∧
       occurrences u n = if adjacent G u u then 2 else 0).
Proof.
  intros Hwf Hnd Hcov. destruct (with_ordering_loops G order Hwf Hnd Hcov) as (g & Hok & Hex & Hm). exists g.
  assert (∀ x y, before order x y → before order y x → False) as Hanti.
  { intros x y. rewrite !(px_before (og_indices g) order) by apply Hex. lia. }
  assert (∀ v (X : gset N) t, occurrences v (hash_iter t X) = if decide (v ∈ X) then 1 else 0) as Hocc.
  { intros v X t. assert (∀ l, NoDup l → occurrences v l = if decide (v ∈ l) then 1 else 0) as HH.
    { unfold occurrences. induction l as [|x l IH]; intros Hn; [done|].
      apply NoDup_cons in Hn as [Hx Hn]. specialize (IH Hn). rewrite filter_cons.
      destruct (decide (x = v)) as [->|E].
      - cbn [length]. rewrite IH, decide_False, decide_True by set_solver. done.
      - rewrite IH. repeat case_decide; set_solver. }
    rewrite HH by apply NoDup_hash_iter. pose proof (elem_of_hash_iter t X v).
    destruct (decide (v ∈ hash_iter t X)), (decide (v ∈ X)); tauto. }
  split_and!; [done|apply Hex| |done| |apply (ol_adj G order g Hwf Hex Hcov)| | |].
  - cbn. rewrite <- (or_nodes _ _ _ _ _ Hex). by rewrite fmap_length.
  - intros u. cbn. rewrite bool_decide_eq_true. symmetry. apply pos_map_elem, Hex.
  - intros u Hu HGu. destruct (ol_spec G order g Hwf Hex Hcov u Hu) as (l & r & n & Hl & Hr & Hn & _ & _ & _ & _ & _ & HL & HR).
    cbn. rewrite Hn. destruct (wf_neighbours _ Hwf u HGu) as (l0 & _ & Hn0 & H0 & ->).
    assert (length l0 = size (on_left n ∪ on_right n)) as ->.
    { transitivity (length (elements (on_left n ∪ on_right n))); [|done].
      apply Permutation_length, NoDup_Permutation; [done|apply NoDup_elements|].
      intros x. rewrite H0, elem_of_elements, elem_of_union, HL, HR. split; [|tauto]. intros Hux.
      assert (x ∈ order) as Hx by (by eapply Hcov, (wf_adj_sym _ Hwf)).
      rewrite !(px_before (og_indices g) order) by apply Hex.
      destruct (Nat.lt_total (px (og_indices g) u) (px (og_indices g) x)) as [?|[?|?]]; [auto 10| |auto 10].
      assert (x = u) as -> by (symmetry; by eapply px_inj; [apply Hex|..]). auto. }
    assert (on_left n ∩ on_right n = if adjacent G u u then {[u]} else ∅) as Hint.
    { apply set_eq. intros x. rewrite elem_of_intersection, HL, HR. destruct (adjacent G u u) eqn:E.
      - rewrite elem_of_singleton. split; [|intros ->; auto]. intros [[_ [E1|H1]] [_ [E2|H2]]]; [done..|]. by destruct (Hanti _ _ H1 H2).
      - split; [|set_solver]. intros [[Hx [E1|H1]] [Hx' [E2|H2]]]; unfold adj in *; [congruence..|]. by destruct (Hanti _ _ H1 H2). }
    assert (size (on_left n) + size (on_right n) = size (on_left n ∪ on_right n) + size (on_left n ∩ on_right n)) as ->.
    { rewrite size_union_alt.
      assert (size (on_right n) = size (on_right n ∖ on_left n) + size (on_left n ∩ on_right n)) as ->; [|lia].
      rewrite <- size_union by set_solver. f_equal. apply set_eq. intros x.
      rewrite elem_of_union, elem_of_difference, elem_of_intersection. destruct (decide (x ∈ on_left n)); tauto. }
    rewrite Hint. destruct (adjacent G u u); [by rewrite size_singleton|by rewrite size_empty].
  - intros u i. cbn. rewrite unwrap_ok. apply Hex.
  - intros u Hu. destruct (ol_spec G order g Hwf Hex Hcov u Hu) as (l & r & n & Hl & Hr & Hn & Hnb & Hlo & Hro & Hls & Hrs & HL & HR).
    exists l, r, (on_neighbours n). split_and!; [done|done|done|done|done|cbn; rewrite Hn; lia|cbn; by rewrite Hn| |].
    + intros v Hvu. unfold on_neighbours, occurrences. rewrite filter_app, app_length.
      change (occurrences v (hash_iter 0 (on_left n)) + occurrences v (hash_iter 1 (on_right n)) = if adjacent G u v then 1 else 0).
      rewrite !Hocc. destruct (decide (v ∈ on_left n)) as [E|E], (decide (v ∈ on_right n)) as [E0|E0];
        rewrite HL in E; rewrite HR in E0; unfold adj in *.
      * destruct E as [_ [?|E]]; [done|]. destruct E0 as [_ [?|E0]]; [done|]. by destruct (Hanti _ _ E E0).
      * by destruct E as [-> _].
      * by destruct E0 as [-> _].
      * destruct (adjacent G u v) eqn:Ea; [|done]. exfalso.
        assert (v ∈ order) as Hv by (by eapply Hcov, (wf_adj_sym _ Hwf)).
        rewrite !(px_before (og_indices g) order) in * by apply Hex.
        destruct (Nat.lt_total (px (og_indices g) u) (px (og_indices g) v)) as [?|[?|?]]; [auto 10| |auto 10].
        apply Hvu. symmetry. by eapply px_inj; [apply Hex|..].
    + unfold on_neighbours, occurrences. rewrite filter_app, app_length.
      change (occurrences u (hash_iter 0 (on_left n)) + occurrences u (hash_iter 1 (on_right n)) = if adjacent G u u then 2 else 0).
      rewrite !Hocc. unfold adj in *.
      destruct (adjacent G u u) eqn:Ea; [rewrite !decide_True by (rewrite ?HL, ?HR; auto); done|].
      rewrite !decide_False; [done| |]; rewrite ?HL, ?HR; intros [? _]; congruence.
Qed.

(** The assertion in with_ordering catches every incomplete order of degeneracy(). *)
Theorem C78_by_degeneracy (G : graph) (g : ordgraph) : graph_wf G → og_by_degeneracy G = Ok g →
  NoDup (vertices (og_graph g)) ∧ (∀ v, v ∈ vertices (og_graph g) ↔ contains G v = true) ∧
  (∀ u v, adjacent (og_graph g) u v = adjacent G u v) ∧
  ∃ lo up core, degeneracy G = Ok (lo, up, vertices (og_graph g), core).
Proof.
  intros Hwf Hg. unfold og_by_degeneracy in Hg. apply bind_ok in Hg as ([[[lo up] order] core] & Hd & Hg). cbn [fst snd] in Hg.
  destruct (C77_degeneracy_loops_partial G Hwf) as [_ Hl]. destruct (Hl _ _ _ _ Hd) as (_ & Hv & _ & _ & _ & Hall).
  destruct (decide (NoDup order)) as [Hnd|Hnd].
  - destruct (C78_with_ordering_loops G order Hwf Hnd) as (g' & Hg' & Hvs & _ & _ & _ & Ha & _).
    { intros u v Huv. apply Hall; [done|]. by eapply (wf_adj_vtx _ Hwf). }
    rewrite Hg in Hg'. injection Hg' as <-. rewrite Hvs. split_and!; [done| |done|eauto].
    intros v. split; [apply Hv|by apply Hall].
  - rewrite (C34_bad_order_panics G order Hwf) in Hg; [done|by left].
Qed.

(** ** C79: [G0] is [G] without its loops, e.g. after remove_loops(). *)
Theorem C79_with_ordering_drops_loops (G G0 : graph) (order : list N) : graph_wf G → graph_wf G0 →
  (∀ u v, adjacent G0 u v = true ↔ adjacent G u v = true ∧ u ≠ v) →
  NoDup order → (∀ u, u ∈ order ↔ contains G u = true) →
  (N.of_nat (3 * length order + num_edges G0) <= u32_mod)%N →
  ∃ g, dg_with_ordering G order = Ok g ∧ degen_of G0 order g.
Proof.
  intros Hwf Hwf0 Ha Hnd Ho Hsz. destruct (dg_with_ordering_loops G G0 order Hwf Hwf0 Ha Hnd) as (g & Hg & Hex).
  - intros u v Huv. apply Ho. by eapply (wf_adj_vtx _ Hwf).
  - intros u Hu. by apply Ho.
  - done.
  - exists g. split; [done|]. apply dg_exact_degen_of; [done| |done]. intros u Hu%Ha. tauto.
Qed.
End with_iter.

Local Existing Instance std_iter.

(** K4 on 2..5 together with an isolated vertex with a loop: the loop vertex is listed twice and
    vertex 4 is missing; the three constructions on top of degeneracy() panic. *)
Definition ex_loop_edges : list (N * N) := [(1,1);(2,3);(3,4);(2,4);(2,5);(3,5);(4,5)]%N.
Theorem C77_order_refuted : ∃ G lo up order core, graph_wf G ∧
  degeneracy G = Ok (lo, up, order, core) ∧ ¬ NoDup order ∧ contains G 4 = true ∧ (4%N ∉ order) ∧ core !! 4%N = None ∧
  og_by_degeneracy G = Panic ∧ dg_from_graph G = Panic ∧ df_orient G = Panic.
Proof.
  exists (eg_graph (ex_edit ex_loop_edges)). eexists _, _, _, _. split; [apply ex_edit_spec|].
  split; [vm_compute; reflexivity|]. split_and!; [|vm_compute; done| |vm_compute; done|vm_compute; done|vm_compute; done|vm_compute; done].
  - intros H. apply (NoDup_lookup _ 3 4 1%N) in H; done.
  - rewrite !not_elem_of_cons. split_and!; try done. apply not_elem_of_nil.
Qed.

(** Two triangles with a loop at every vertex: a degree is decremented below zero. *)
Definition ex_loop_edges2 : list (N * N) :=
  [(0,0);(0,3);(0,4);(1,1);(1,2);(1,5);(2,2);(2,5);(3,3);(3,4);(4,4);(5,5)]%N.
Theorem C77_panic_refuted : ∃ G, graph_wf G ∧ degeneracy G = Panic.
Proof. exists (eg_graph (ex_edit ex_loop_edges2)). split; [apply ex_edit_spec|]. vm_compute. done. Qed.

(** ** Concrete cases *)
(** The path 1-2-3 with a loop at 2: degeneracy() returns a complete order, and the OrdGraph has
    2 as its own left and right neighbour. *)
Definition ex_loop_edges3 : list (N * N) := [(1,2);(2,3);(2,2)]%N.
Example ex_C77 : graph_wf (eg_graph (ex_edit ex_loop_edges3)) ∧ adjacent (eg_graph (ex_edit ex_loop_edges3)) 2 2 = true ∧
  (r ← degeneracy (eg_graph (ex_edit ex_loop_edges3)); Ok r.1) = Ok (2, 2, [2; 3; 1]%N).
Proof. split; [apply ex_edit_spec|]. by vm_compute. Qed.
Example ex_C78 : (g ← og_by_degeneracy (eg_graph (ex_edit ex_loop_edges3));
    l ← left_neighbours (og_lgraph g) 2; r ← og_right_neighbours g 2; n ← neighbours (og_graph g) 2;
    Ok (l, r, n, degree (og_graph g) 2)) = Ok ([2]%N, [2; 3; 1]%N, [2; 1; 3; 2]%N, 4).
Proof. vm_compute. done. Qed.
Example ex_C79 : let G := eg_graph (ex_edit ex_loop_edges3) in let G0 := eg_graph (ex_edit [(1,2);(2,3)]%N) in
  graph_wf G ∧ graph_wf G0 ∧ (∀ u v, adjacent G0 u v = true ↔ adjacent G u v = true ∧ u ≠ v) ∧
  (g ← dg_with_ordering G [1; 2; 3]%N; l ← left_neighbours (dg_lgraph g) 2; r ← dg_right_neighbours g 2;
   Ok (l, elements r, num_edges (dg_graph g))) = Ok ([1]%N, [3]%N, 2).
Proof.
  cbv zeta. destruct (ex_edit_spec ex_loop_edges3) as [H1 H2]. destruct (ex_edit_spec [(1,2);(2,3)]%N) as [H3 H4].
  split_and!; [done|done| |by vm_compute]. intros u v. rewrite H2, H4. unfold ex_loop_edges3.
  rewrite !elem_of_cons. split.
  - intros [[[= -> ->]|[[= -> ->]|?%elem_of_nil]]|[[= -> ->]|[[= -> ->]|?%elem_of_nil]]]; try done; (split; [auto 10|done]).
  - intros [[[[= -> ->]|[[= -> ->]|[[= -> ->]|?%elem_of_nil]]]|[[= -> ->]|[[= -> ->]|[[= -> ->]|?%elem_of_nil]]]] ?]; try done; auto 10.
Qed.

Print Assumptions C77_degeneracy_loops_partial.
Print Assumptions C78_with_ordering_loops.
Print Assumptions C78_by_degeneracy.
Print Assumptions C79_with_ordering_drops_loops.
Print Assumptions C77_order_refuted.
Print Assumptions C77_panic_refuted.
