(** Property theorems C01-C15: EditGraph, iterators, neighbourhoods, generators.
    Each theorem is followed by a concrete case meeting its hypotheses. *)
From Verif Require Import Base Spec M_Graph M_Iterators M_EditGraph S_Graph
  P_EditGraph P_EditGraph2 P_Graph P_Iterators P_Adds P_Generators P_Unions.

(** Example state (not code): the graph reached by the given edits. *)
Definition ex_ops : list edit_op :=
  [AddEdge 1 2; AddEdge 2 3; AddVertex 7; AddEdge 3 3; AddEdge 3 4; RemoveEdge 9 9; RemoveVertex 4].
Definition ex_g : editgraph :=
  match eg_run (H:=std_iter) eg_new ex_ops with Ok (g, _) => g | _ => eg_new end.
(** A loopless example graph: a path 0-1-2 and an isolated vertex 5. *)
Definition ex_ops2 : list edit_op := [AddEdge 0 1; AddEdge 2 1; AddVertex 5].
Definition ex_g2 : editgraph :=
  match eg_run (H:=std_iter) eg_new ex_ops2 with Ok (g, _) => g | _ => eg_new end.

Section with_iter.
Context `{HI : HashIter}.

(** ** C01 *)
Theorem C01_editgraph_refines (os : list edit_op) :
  ∃ g, eg_run eg_new os = Ok (g, (a_run a_empty os).2) ∧
    (∀ u, eg_contains g u = true ↔ u ∈ av (a_run a_empty os).1) ∧
    (∀ u v, eg_adjacent g u v = true ↔ a_adj (a_run a_empty os).1 u v).
Proof.
  destruct (eg_run_rep os _ _ eg_new_rep) as (g & Hr & HR).
  exists g. split_and!; [exact Hr| |]; intros; [by apply ev_rep|by apply ea_rep].
Qed.

(** The returned boolean says whether the abstract graph changed. *)
Theorem C01_return_value_is_change (os : list edit_op) (o : edit_op) :
  let G := (a_run a_empty os).1 in
  (a_step G o).2 = true ↔ (a_step G o).1 ≠ G.
Proof.
  intros G. assert (a_wf G) as Hwf.
  { destruct (eg_run_rep os _ _ eg_new_rep) as (g & _ & HR). apply HR. }
  clearbody G. destruct G as [V E]. unfold a_wf in Hwf. cbn in Hwf.
  destruct o as [u|u v|u v|u]; cbn; rewrite bool_decide_eq_true; split.
  - intros Hn [= He]. apply Hn. rewrite <- He. clear. set_solver.
  - intros Hn Hu. apply Hn. unfold a_add_vertex. cbn. f_equal. clear -Hu. set_solver.
  - intros Hn [= He1 He2]. apply Hn. rewrite <- He2. clear. set_solver.
  - intros Hn Hu. apply Hn. unfold a_add_edge. cbn. destruct (Hwf _ Hu) as (_ & H1 & H2).
    assert (u ∈ V ∧ v ∈ V) as [? ?].
    { unfold upair in *. destruct (u <=? v)%N; cbn in *; done. }
    f_equal; clear Hwf; set_solver.
  - intros Hin [= He]. rewrite <- He in Hin. clear -Hin. set_solver.
  - intros Hn. destruct (decide (upair u v ∈ E)); [done|]. destruct Hn.
    unfold a_remove_edge; cbn. f_equal. clear Hwf; set_solver.
  - intros Hin [= He1 He2]. rewrite <- He1 in Hin. clear -Hin. set_solver.
  - intros Hn. destruct (decide (u ∈ V)); [done|]. destruct Hn.
    unfold a_remove_vertex; cbn. f_equal; [clear Hwf; set_solver|].
    apply set_eq. intros e. rewrite elem_of_filter. split; [naive_solver|].
    intros He. split; [|done]. destruct (Hwf _ He) as (_ & H1 & H2).
    split; intros Heq; subst; naive_solver.
Qed.

(** ** C02 *)
Theorem C02_counters (g : editgraph) :
  eg_reachable g →
  (∃ V : gset N, (∀ u, u ∈ V ↔ eg_contains g u = true) ∧ eg_num_vertices g = size V) ∧
  (∃ E : gset (N * N), (∀ u v, (u, v) ∈ E ↔ (u <= v)%N ∧ eg_adjacent g u v = true) ∧
     eg_num_edges g = size E ∧
     (∀ u, eg_degree g u = size (filter (λ e, e.1 = u) E) + size (filter (λ e, e.2 = u) E))) ∧
  (∀ u, eg_contains g u = false → eg_degree g u = 0) ∧
  sum_map (eg_degree g) (vertices (eg_graph g)) = 2 * eg_num_edges g ∧
  (g_is_empty (eg_graph g) = true ↔ ∀ u, eg_contains g u = false) ∧
  (∀ u, degrees (eg_graph g) !! u = if eg_contains g u then Some (eg_degree g u) else None).
Proof.
  intros Hg%eg_reachable_wf. destruct Hg as [G HR]. split_and!.
  - exists (av G). split; [|by apply rep_num_vertices]. intros u.
    by rewrite (rep_contains _ _ _ HR), bool_decide_eq_true.
  - exists (ae G). split_and!.
    + intros u v. rewrite (rep_adjacent _ _ _ _ HR), bool_decide_eq_true. split.
      * intros He. destruct (rep_wf _ _ HR _ He) as [Hle _]. cbn in Hle. by rewrite upair_le_id.
      * intros [Hle He]. by rewrite upair_le_id in He.
    + apply HR.
    + intros u. by rewrite (rep_degree _ _ _ HR).
  - intros u Hu. rewrite (rep_contains _ _ _ HR), bool_decide_eq_false in Hu.
    unfold eg_degree. rewrite (rep_degs _ _ HR). by rewrite decide_False.
  - assert (eg_wf g) as Hg by (by eexists). pose proof (eg_graph_wf g Hg) as Hgg.
    unfold eg_num_edges. rewrite (rep_m _ _ HR).
    rewrite <- (a_handshake G (vertices (eg_graph g)) (rep_wf _ _ HR)).
    + unfold sum_map. f_equal. apply list_fmap_ext. intros _ u _. by apply rep_degree.
    + apply Hgg.
    + intros u. rewrite (eg_vertices _ _ Hg). by apply ev_rep.
  - unfold g_is_empty, g_len. cbn. rewrite (rep_num_vertices _ _ HR), Nat.eqb_eq, size_empty_iff.
    split.
    + intros He u. rewrite (rep_contains _ _ _ HR), bool_decide_eq_false. set_solver.
    + intros He u. specialize (He u). rewrite (rep_contains _ _ _ HR), bool_decide_eq_false in He. set_solver.
  - intros u. apply (degrees_spec (eg_graph g)). apply eg_graph_wf. by eexists.
Qed.

(** ** C03 *)
Theorem C03_enumeration (g : editgraph) :
  eg_reachable g →
  NoDup (vertices (eg_graph g)) ∧
  (∀ u, u ∈ vertices (eg_graph g) ↔ eg_contains g u = true) ∧
  (∀ u, eg_contains g u = true →
     ∃ l, neighbours (eg_graph g) u = Ok l ∧ NoDup l ∧ ∀ v, v ∈ l ↔ eg_adjacent g u v = true) ∧
  (∀ u, neighbours (eg_graph g) u = Panic ↔ eg_contains g u = false).
Proof.
  intros Hg%eg_reachable_wf. pose proof (eg_graph_wf g Hg) as Hgg. split_and!.
  - apply Hgg.
  - intros u. by apply eg_vertices.
  - intros u Hu. by apply eg_neighbours.
  - intros u. cbn. unfold eg_contains. destruct (eg_adj g !! u); done.
Qed.

(** ** C04 *)
Theorem C04_eq_is_graph_equality (g h : editgraph) :
  eg_reachable g → eg_reachable h →
  eg_eq g h = true ↔
    (∀ u, eg_contains g u = eg_contains h u) ∧ (∀ u v, eg_adjacent g u v = eg_adjacent h u v).
Proof.
  intros Hg%eg_reachable_wf Hh%eg_reachable_wf. split.
  - unfold eg_eq. intros He.
    destruct (eg_num_vertices g =? _); cbn in He; [|done].
    destruct (eg_num_edges g =? _); cbn in He; [|done].
    destruct (bool_decide (eg_degs g = eg_degs h)); cbn in He; [|done].
    apply bool_decide_eq_true in He. unfold eg_contains, eg_adjacent. by rewrite He.
  - intros [Hv He]. assert (g = h) as ->.
    { apply eg_wf_ext; [done..| |]; unfold ev, ea; intros; [by rewrite Hv|by rewrite He]. }
    unfold eg_eq. rewrite !Nat.eqb_refl, !bool_decide_eq_true_2 by done. done.
Qed.

(** ** C05 *)
Theorem C05_clone_equal (g : editgraph) :
  eg_reachable g →
  ∃ h, eg_clone g = Ok h ∧ eg_reachable h ∧ eg_eq g h = true ∧
    (∀ u, eg_contains h u = eg_contains g u) ∧ (∀ u v, eg_adjacent h u v = eg_adjacent g u v) ∧
    (∀ u, eg_degree h u = eg_degree g u) ∧
    eg_num_vertices h = eg_num_vertices g ∧ eg_num_edges h = eg_num_edges g.
Proof.
  intros Hr. exists g. split; [apply eg_clone_spec; by apply eg_reachable_wf|].
  split_and!; try done. by apply C04_eq_is_graph_equality.
Qed.

(** ** C06 *)
Theorem C06_edges_exactly_once (g : editgraph) :
  eg_reachable g →
  ∃ s l, ei_new (eg_graph g) = Ok s ∧ drains (ei_next (eg_graph g)) s l ∧ NoDup l ∧
    (∀ u v, (u, v) ∈ l ↔ (u <= v)%N ∧ eg_adjacent g u v = true) ∧ length l = eg_num_edges g.
Proof.
  intros Hg%eg_reachable_wf.
  destruct (edges_spec _ (eg_graph_wf g Hg)) as (l & Hl & Hnd & Hin & Hlen).
  destruct (edges_drains _ _ Hl) as (s & Hs & Hd). exists s, l. done.
Qed.

(** ** C07: true for loopless graphs, false in general (loops are skipped). *)
Theorem C07_vertices_and_edges_loopless_partial (g : editgraph) :
  eg_reachable g → (∀ u, eg_adjacent g u u = false) →
  ∃ s l, mi_new (eg_graph g) = Ok s ∧ drains (mi_next (eg_graph g)) s l ∧ NoDup l ∧
    (∀ u, VE_V u ∈ l ↔ eg_contains g u = true) ∧
    (∀ u v, VE_E (u, v) ∈ l ↔ (u <= v)%N ∧ eg_adjacent g u v = true).
Proof.
  intros Hg%eg_reachable_wf Hll.
  destruct (mixed_spec _ (eg_graph_wf g Hg)) as (l & Hl & Hnd & Hv & He).
  destruct (mixed_drains _ _ Hl) as (s & Hs & Hd). exists s, l. split_and!; try done.
  intros u v. rewrite He. change (adj (eg_graph g) u v) with (eg_adjacent g u v = true).
  split; intros [? Ha]; (split; [|done]).
  - lia.
  - assert (u ≠ v) by (intros ->; specialize (Hll v); congruence). lia.
Qed.

(** On every reachable graph: all vertices and all edges that are not loops, once each. *)
Theorem C07_vertices_and_edges_no_loops_reported_partial (g : editgraph) :
  eg_reachable g →
  ∃ s l, mi_new (eg_graph g) = Ok s ∧ drains (mi_next (eg_graph g)) s l ∧ NoDup l ∧
    (∀ u, VE_V u ∈ l ↔ eg_contains g u = true) ∧
    (∀ u v, VE_E (u, v) ∈ l ↔ (u < v)%N ∧ eg_adjacent g u v = true).
Proof.
  intros Hg%eg_reachable_wf.
  destruct (mixed_spec _ (eg_graph_wf g Hg)) as (l & Hl & Hnd & Hv & He).
  destruct (mixed_drains _ _ Hl) as (s & Hs & Hd). by exists s, l.
Qed.

(** A graph with a loop that draining never reports. *)
Theorem C07_vertices_and_edges_refuted :
  ∃ g, eg_reachable g ∧ eg_adjacent g 3 3 = true ∧
    ∀ s l, mi_new (eg_graph g) = Ok s → drains (mi_next (eg_graph g)) s l → VE_E (3, 3)%N ∉ l.
Proof.
  destruct (eg_add_edge_spec eg_new 3 3 eg_new_wf) as (g & _ & Hg & _ & He & _).
  exists g. split; [by apply eg_reachable_wf|]. split; [apply He; auto|].
  intros s l Hs Hd.
  destruct (mixed_spec _ (eg_graph_wf g Hg)) as (l' & Hl & _ & _ & He').
  destruct (mixed_drains _ _ Hl) as (s' & Hs' & Hd'). rewrite Hs in Hs'. simplify_eq.
  rewrite (drains_det _ _ _ _ Hd Hd'), He'. lia.
Qed.

(** ** C08 *)
Theorem C08_add_vertices (g : editgraph) (vs : list N) :
  eg_reachable g →
  let r := eg_add_vertices g vs in
  eg_reachable r.1 ∧
  (∀ x, eg_contains r.1 x = true ↔ eg_contains g x = true ∨ x ∈ vs) ∧
  (∀ x y, eg_adjacent r.1 x y = eg_adjacent g x y) ∧
  r.2 + eg_num_vertices g = eg_num_vertices r.1.
Proof.
  intros Hg%eg_reachable_wf r.
  destruct (adds_add_vertices vs g Hg) as (h & [= Hh] & Hwf & HV & HE).
  assert (r.1 = h) as -> by done.
  split_and!; [by apply eg_reachable_wf|exact HV| |].
  - intros x y. specialize (HE x y). unfold ea in HE. apply eq_true_iff_eq. naive_solver.
  - subst h. by apply eg_add_vertices_count.
Qed.

Theorem C08_add_edges (g : editgraph) (es : list (N * N)) :
  eg_reachable g →
  ∃ h k, eg_add_edges g es = Ok (h, k) ∧ eg_reachable h ∧
    (∀ x, eg_contains h x = true ↔ eg_contains g x = true ∨ ∃ e, e ∈ es ∧ (x = e.1 ∨ x = e.2)) ∧
    (∀ x y, eg_adjacent h x y = true ↔ eg_adjacent g x y = true ∨ (x, y) ∈ es ∨ (y, x) ∈ es) ∧
    k + eg_num_edges g = eg_num_edges h.
Proof.
  intros Hg%eg_reachable_wf.
  destruct (eg_add_edges_count g es Hg) as (h & k & Hr & Hk).
  destruct (adds_add_edges es g Hg) as (h' & Hok & Hwf & HV & HE).
  rewrite Hr in Hok. cbn in Hok. simplify_eq. exists h', k.
  split_and!; [done|by apply eg_reachable_wf| | |done].
  - intros x. exact (HV x).
  - intros x y. rewrite (HE x y). unfold ea. split.
    + intros [?|(e & He & Hxy)]; [by left|]. destruct e. naive_solver.
    + intros [?|[?|?]]; [by left|right; exists (x, y)|right; exists (y, x)]; naive_solver.
Qed.

Theorem C08_from_iter (es : list (N * N)) :
  ∃ h, eg_from_iter es = Ok h ∧ eg_reachable h ∧
    (∀ x, eg_contains h x = true ↔ ∃ e, e ∈ es ∧ (x = e.1 ∨ x = e.2)) ∧
    (∀ x y, eg_adjacent h x y = true ↔ (x, y) ∈ es ∨ (y, x) ∈ es).
Proof.
  destruct (eg_from_iter_spec es) as (h & ? & ? & ? & ?). exists h.
  split_and!; [done|by apply eg_reachable_wf|done|done].
Qed.

Theorem C08_remove_loops (g : editgraph) :
  eg_reachable g →
  ∃ h k, eg_remove_loops g = Ok (h, k) ∧ eg_reachable h ∧
    (∀ x, eg_contains h x = true ↔ eg_contains g x = true) ∧
    (∀ x y, eg_adjacent h x y = true ↔ eg_adjacent g x y = true ∧ x ≠ y) ∧
    (∃ X : gset N, (∀ x, x ∈ X ↔ eg_adjacent g x x = true) ∧ k = size X).
Proof.
  intros Hg%eg_reachable_wf. destruct (eg_remove_loops_spec g Hg) as (h & k & ? & ? & ? & ? & ?).
  exists h, k. split_and!; [done|by apply eg_reachable_wf|done|done|done].
Qed.

Theorem C08_remove_isolates (g : editgraph) :
  eg_reachable g →
  ∃ h k, eg_remove_isolates g = Ok (h, k) ∧ eg_reachable h ∧
    (∀ x, eg_contains h x = true ↔ eg_contains g x = true ∧ ∃ y, eg_adjacent g x y = true) ∧
    (∀ x y, eg_adjacent h x y = true ↔ eg_adjacent g x y = true) ∧
    (∃ X : gset N, (∀ x, x ∈ X ↔ eg_contains g x = true ∧ ∀ y, ¬ eg_adjacent g x y = true) ∧ k = size X).
Proof.
  intros Hg%eg_reachable_wf. destruct (eg_remove_isolates_spec g Hg) as (h & k & ? & ? & ? & ? & ?).
  exists h, k. split_and!; [done|by apply eg_reachable_wf|done|done|done].
Qed.

(** ** C09 *)
Theorem C09_contract_into (g : editgraph) (c : N) (X : list N) :
  eg_reachable g → eg_contains g c = true → (∀ v, v ∈ X → eg_contains g v = true) →
  ∃ h, eg_contract_into g c X = Ok h ∧ eg_reachable h ∧
    (∀ x, eg_contains h x = true ↔ eg_contains g x = true ∧ (x = c ∨ x ∉ X)) ∧
    (∀ x y, x ≠ c → y ≠ c →
       eg_adjacent h x y = true ↔ x ∉ X ∧ y ∉ X ∧ eg_adjacent g x y = true) ∧
    (∀ y, y ≠ c → eg_adjacent h c y = true ↔
       y ∉ X ∧ ∃ v, (v = c ∨ v ∈ X) ∧ eg_adjacent g v y = true) ∧
    (eg_adjacent h c c = eg_adjacent g c c).
Proof.
  intros Hg%eg_reachable_wf Hc HX.
  destruct (eg_contract_into_spec g c X Hg Hc HX) as (h & Hok & Hwf & HV & HE).
  exists h. split_and!; [done|by apply eg_reachable_wf|done| | |].
  - intros x y Hx Hy. rewrite (HE x y). unfold ea. naive_solver.
  - intros y Hy. rewrite (HE c y). unfold ea. split.
    + naive_solver.
    + intros (? & v & Hv & Hvy). split_and!; [by left|by right|].
      destruct (decide (v = c)) as [->|]; [by left|]. right. left. naive_solver.
  - apply eq_true_iff_eq. rewrite (HE c c). unfold ea. naive_solver.
Qed.

Theorem C09_contract (g : editgraph) (u : N) (X : list N) :
  eg_reachable g → (∀ v, v ∈ u :: X → eg_contains g v = true) →
  ∃ h, eg_contract g (u :: X) = Ok (h, u) ∧ eg_contract_into g u (u :: X) = Ok h ∧ eg_reachable h ∧
    (∀ x, eg_contains h x = true ↔ eg_contains g x = true ∧ (x = u ∨ x ∉ X)) ∧
    (∀ x y, x ≠ u → y ≠ u →
       eg_adjacent h x y = true ↔ x ∉ X ∧ y ∉ X ∧ eg_adjacent g x y = true) ∧
    (∀ y, y ≠ u → eg_adjacent h u y = true ↔
       y ∉ X ∧ ∃ v, (v = u ∨ v ∈ X) ∧ eg_adjacent g v y = true) ∧
    (eg_adjacent h u u = eg_adjacent g u u).
Proof.
  intros Hg HX. destruct (C09_contract_into g u X Hg) as (h & Hok & Hr & Hrest).
  { apply HX. set_solver. }
  { intros v Hv. apply HX. set_solver. }
  exists h. split; [unfold eg_contract; by rewrite Hok|]. split; [|done].
  rewrite <- Hok. unfold eg_contract_into, collect_set.
  assert ((list_to_set (u :: X) ∖ {[u]} : gset N) = list_to_set X ∖ {[u]}) as -> by set_solver. done.
Qed.

Theorem C09_contract_pair_partial (g : editgraph) (u v : N) :
  eg_reachable g → eg_contains g u = true → eg_contains g v = true → u ≠ v →
  ∃ h, eg_contract_pair g u v = Ok h ∧ eg_reachable h ∧
    (∀ x, eg_contains h x = true ↔ eg_contains g x = true ∧ x ≠ v) ∧
    (∀ x y, x ≠ u → y ≠ u →
       eg_adjacent h x y = true ↔ x ≠ v ∧ y ≠ v ∧ eg_adjacent g x y = true) ∧
    (∀ y, y ≠ u → eg_adjacent h u y = true ↔
       y ≠ v ∧ (eg_adjacent g u y = true ∨ eg_adjacent g v y = true)) ∧
    (eg_adjacent h u u = eg_adjacent g u u).
Proof.
  intros Hg%eg_reachable_wf Hu Hv Huv.
  destruct (eg_contract_pair_spec g u v Hg Hu Hv Huv) as (h & Hok & Hwf & HV & HE).
  exists h. split_and!; [done|by apply eg_reachable_wf|done| | |].
  - intros x y Hx Hy. rewrite (HE x y). unfold ea. naive_solver.
  - intros y Hy. rewrite (HE u y). unfold ea. naive_solver.
  - apply eq_true_iff_eq. rewrite (HE u u). unfold ea. naive_solver.
Qed.

(** [contract_pair(u,u)] deletes the vertex although nothing was contracted away. *)
Theorem C09_contract_pair_refuted :
  ∃ g u h, eg_reachable g ∧ eg_contains g u = true ∧ eg_contract_pair g u u = Ok h ∧
    eg_contains h u = false.
Proof.
  destruct (eg_add_vertex_spec eg_new 0 eg_new_wf) as (Hg & _ & HV & HE & _).
  set (g := (eg_add_vertex eg_new 0).1) in *.
  assert (ev g 0) as H0 by (apply HV; auto). pose proof H0 as H0'. unfold ev in H0'.
  destruct (eg_neighbours g 0 Hg H0) as (l & Hl & _ & Hin).
  assert (l = []) as ->.
  { destruct l as [|x l]; [done|]. exfalso. apply (eg_new_ea 0 x), HE, Hin. set_solver. }
  destruct (eg_remove_vertex_spec g 0 Hg) as (h & Hh & _ & HV' & _).
  exists g, 0%N, h. split_and!; [by apply eg_reachable_wf|done| |].
  - unfold eg_contract_pair. rewrite H0'. cbn [negb orb]. rewrite Hl. cbn [mbind res_bind].
    assert (hash_iter 2 (collect_set [] ∖ {[0%N]} : gset N) = []) as ->.
    { apply Permutation_nil_r. rewrite hash_iter_perm.
      assert (collect_set [] ∖ {[0%N]} = (∅ : gset N)) as -> by (unfold collect_set; set_solver).
      by rewrite elements_empty. }
    cbn [fold_res mbind res_bind]. by rewrite Hh.
  - destruct (eg_contains h 0) eqn:E; [|done]. exfalso. apply HV' in E. naive_solver.
Qed.

Theorem C09_panics (g : editgraph) :
  eg_reachable g →
  eg_contract g [] = Panic ∧
  (∀ u v, eg_contract_pair g u v = Panic ↔ eg_contains g u = false ∨ eg_contains g v = false) ∧
  (∀ c X v, v ∈ X → v ≠ c → eg_contains g v = false → eg_contract_into g c X = Panic).
Proof.
  intros Hg%eg_reachable_wf. split_and!; [done| |].
  - intros u v. unfold eg_contract_pair. split.
    + intros Hp. destruct (eg_contains g u) eqn:Eu; [|by left].
      destruct (eg_contains g v) eqn:Ev; [|by right]. exfalso. cbn [negb orb] in Hp.
      destruct (eg_neighbours g v Hg Ev) as (l & Hl & _ & _). rewrite Hl in Hp. cbn [mbind res_bind] in Hp.
      set (k := hash_iter 2 _) in Hp.
      destruct (adds_edge_fold (λ _ : N, u) (λ x, x) k g Hg) as (h & Hok & Hwf & _).
      rewrite Hok in Hp. cbn [mbind res_bind] in Hp.
      destruct (eg_remove_vertex_spec h v Hwf) as (h' & Hh' & _). rewrite Hh' in Hp. done.
    + intros [->| ->]; cbn; [done|]. by rewrite orb_true_r.
  - intros c X v Hv Hne Hc. apply (eg_contract_into_panic g c X v); [done..|].
    unfold ev. congruence.
Qed.

(** ** C10 *)
Theorem C10_subgraph (G : graph) (X : list N) :
  graph_wf G → (∀ v, v ∈ X → contains G v = true) →
  ∃ h, subgraph G X = Ok h ∧ eg_reachable h ∧
    (∀ x, eg_contains h x = true ↔ x ∈ X) ∧
    (∀ x y, eg_adjacent h x y = true ↔ x ∈ X ∧ y ∈ X ∧ adjacent G x y = true).
Proof.
  intros Hwf HX. destruct (subgraph_spec G X Hwf HX) as (h & ? & ? & ? & ?).
  exists h. split_and!; [done|by apply eg_reachable_wf|done|done].
Qed.

(** Reachable EditGraphs meet the hypothesis [graph_wf] used for generic code. *)
Theorem C10_reachable_wf (g : editgraph) : eg_reachable g → graph_wf (eg_graph g).
Proof. intros Hg%eg_reachable_wf. by apply eg_graph_wf. Qed.

(** ** C11 *)
Theorem C11_neighbourhood (G : graph) (X : list N) :
  graph_wf G → (∀ v, v ∈ X → contains G v = true) →
  ∃ S, neighbourhood G X = Ok S ∧ ∀ u, u ∈ S ↔ u ∉ X ∧ ∃ v, v ∈ X ∧ adjacent G v u = true.
Proof. exact (neighbourhood_spec G X). Qed.

Theorem C11_closed_neighbourhood (G : graph) (X : list N) :
  graph_wf G → (∀ v, v ∈ X → contains G v = true) →
  ∃ S, closed_neighbourhood G X = Ok S ∧ ∀ u, u ∈ S ↔ u ∈ X ∨ ∃ v, v ∈ X ∧ adjacent G v u = true.
Proof. exact (closed_neighbourhood_spec G X). Qed.

(** ** C12 *)
Theorem C12_r_neighbourhood (G : graph) (X : list N) (r : nat) :
  graph_wf G → (∀ v, v ∈ X → contains G v = true) →
  ∃ S, r_neighbourhood G X r = Ok S ∧
    ∀ u, u ∈ S ↔ ∃ x n, x ∈ X ∧ n ≤ r ∧ nsteps (λ a b, adjacent G a b = true) n x u.
Proof.
  intros Hwf HX. destruct (r_neighbourhood_spec G X r Hwf HX) as (S & ? & HS).
  exists S. split; [done|]. intros u. rewrite HS. unfold within, adj. naive_solver.
Qed.

Theorem C12_r_neighbours (G : graph) (u : N) (r : nat) :
  graph_wf G → contains G u = true →
  ∃ S, r_neighbours G u r = Ok S ∧
    ∀ x, x ∈ S ↔ ∃ n, n ≤ r ∧ nsteps (λ a b, adjacent G a b = true) n u x.
Proof.
  intros Hwf Hu. destruct (C12_r_neighbourhood G [u] r Hwf) as (S & ? & HS).
  { set_solver. }
  exists S. split; [done|]. intros x. rewrite HS. set_solver.
Qed.

(** ** C13 *)
Theorem C13_disj_union (g : editgraph) (G : graph) :
  eg_reachable g → graph_wf G →
  (∀ v, contains G v = true → (v < 4294967296)%N) →
  (∀ u v, eg_contains g u = true → contains G v = true → (u + 1 + v < 4294967296)%N) →
  ∃ h off, eg_disj_union g G = Ok h ∧ eg_reachable h ∧
    (∀ u v, contains G v = true → eg_contains g u = true → (u < v + off)%N) ∧
    (∀ x, eg_contains h x = true ↔ eg_contains g x = true ∨ ∃ v, contains G v = true ∧ x = (v + off)%N) ∧
    (∀ x y, eg_adjacent h x y = true ↔ eg_adjacent g x y = true ∨
       ∃ u v, adjacent G u v = true ∧ x = (u + off)%N ∧ y = (v + off)%N) ∧
    eg_num_vertices h = eg_num_vertices g + num_vertices G ∧
    eg_num_edges h = eg_num_edges g + num_edges G.
Proof.
  intros Hg%eg_reachable_wf HG H1 H2.
  destruct (eg_disj_union_spec g G Hg HG H1 H2) as (h & off & ? & ? & Hoff & _ & ? & ? & ? & ?).
  exists h, off. split_and!; try done; [by apply eg_reachable_wf|].
  intros u v Hv Hu. specialize (Hoff u v Hv Hu). lia.
Qed.

Theorem C13_disj_unions (Gs : list graph) (bs : list N) :
  Forall2 (λ G b, graph_wf G ∧ ∀ v, contains G v = true → (v < b)%N) Gs bs →
  (sumN bs <= 4294967296)%N →
  ∃ h offs, eg_disj_unions Gs = Ok h ∧ eg_reachable h ∧ length offs = length Gs ∧
    (∀ i j offi offj Gi Gj u v, i < j → offs !! i = Some offi → offs !! j = Some offj →
        Gs !! i = Some Gi → Gs !! j = Some Gj → contains Gi u = true → contains Gj v = true →
        (u + offi < v + offj)%N) ∧
    (∀ x, eg_contains h x = true ↔ ∃ i G off v, Gs !! i = Some G ∧ offs !! i = Some off ∧
               contains G v = true ∧ x = (v + off)%N) ∧
    (∀ x y, eg_adjacent h x y = true ↔ ∃ i G off u v, Gs !! i = Some G ∧ offs !! i = Some off ∧
               adjacent G u v = true ∧ x = (u + off)%N ∧ y = (v + off)%N) ∧
    eg_num_vertices h = sum_map num_vertices Gs ∧ eg_num_edges h = sum_map num_edges Gs.
Proof.
  intros HF Hs.
  destruct (eg_disj_unions_gen Gs bs eg_new 0 eg_new_wf) as (h & offs & ? & ? & ? & _ & H2 & H3 & H4 & H5 & H6).
  { intros u Hu. by destruct (eg_new_ev u). }
  { done. }
  { lia. }
  exists h, offs. split_and!; try done; [by apply eg_reachable_wf| | |].
  - intros i j offi offj Gi Gj u v ? ? ? ? ? Hu Hv.
    enough (u + offi < offj)%N by lia. eapply H2; eauto.
  - intros x. rewrite (H3 x). pose proof (eg_new_ev x). naive_solver.
  - intros x y. rewrite (H4 x y). pose proof (eg_new_ea x y). naive_solver.
Qed.

(** With the largest label in use the offset wraps to 0 and the copies collide. *)
Theorem C13_disj_union_overflow_refuted :
  ∃ g h, eg_reachable g ∧ (∀ u, eg_contains g u = true ↔ u = 4294967295%N) ∧
    eg_disj_union g (eg_graph g) = Ok h ∧ eg_num_vertices h = 1.
Proof.
  destruct (eg_add_vertex_spec eg_new 4294967295 eg_new_wf) as (Hg & _ & HV & HE & _).
  set (g := (eg_add_vertex eg_new 4294967295).1) in *.
  assert (∀ u, ev g u ↔ u = 4294967295%N) as HV'.
  { intros u. rewrite HV. pose proof (eg_new_ev u). naive_solver. }
  assert (vertices (eg_graph g) = [4294967295%N]) as Hvs.
  { apply Permutation_length_1_inv. symmetry. apply NoDup_Permutation.
    - apply (eg_graph_wf g Hg).
    - apply NoDup_singleton.
    - intros x. rewrite (eg_vertices _ _ Hg), HV'. set_solver. }
  assert (edges (eg_graph g) = Ok []) as Hes.
  { destruct (edges_spec _ (eg_graph_wf g Hg)) as (l & Hl & _ & Hin & _). rewrite Hl. f_equal.
    destruct l as [|[x y] l]; [done|]. exfalso.
    destruct (proj1 (Hin x y)) as [_ Ha]; [set_solver|]. apply HE in Ha. by apply eg_new_ea in Ha. }
  eexists g, g. split_and!; [by apply eg_reachable_wf|exact HV'| |reflexivity].
  unfold eg_disj_union. rewrite Hvs, Hes. reflexivity.
Qed.

(** ** C14 *)
Theorem C14_normalize (g : editgraph) :
  eg_reachable g →
  ∃ h m, eg_normalize g = Ok (h, m) ∧ eg_reachable h ∧
    (∀ i, is_Some (m !! i) ↔ (i < N.of_nat (eg_num_vertices g))%N) ∧
    (∀ u, eg_contains g u = true ↔ ∃ i, m !! i = Some u) ∧
    (∀ i j u v, m !! i = Some u → m !! j = Some v → (i < j)%N → (u < v)%N) ∧
    (∀ i, eg_contains h i = true ↔ (i < N.of_nat (eg_num_vertices g))%N) ∧
    (∀ i j u v, m !! i = Some u → m !! j = Some v → eg_adjacent h i j = eg_adjacent g u v) ∧
    eg_num_edges h = eg_num_edges g.
Proof.
  intros Hg%eg_reachable_wf.
  destruct (eg_normalize_spec g Hg) as (h & m & ? & ? & ? & ? & ? & ? & HE & ?).
  exists h, m. split_and!; try done; [by apply eg_reachable_wf|].
  intros i j u v Hi Hj. apply eq_true_iff_eq. rewrite (HE i j). unfold ea. naive_solver.
Qed.

(** ** C15 *)
(** Specification vocabulary: the graph described by a vertex and an adjacency predicate. *)
Definition produces (r : res editgraph) (PV : N → Prop) (PE : N → N → Prop) : Prop :=
  ∃ g, r = Ok g ∧ eg_reachable g ∧ (∀ x, eg_contains g x = true ↔ PV x) ∧
       (∀ x y, eg_adjacent g x y = true ↔ PE x y).

Theorem C15_path (n : N) :
  produces (eg_path n) (λ x, x < n)%N (λ x y, x < n ∧ y < n ∧ (y = x + 1 ∨ x = y + 1))%N.
Proof.
  destruct (eg_path_spec n) as (g & ? & ? & ? & ?).
  exists g. split_and!; [done|by apply eg_reachable_wf|done|done].
Qed.

Theorem C15_cycle (n : N) :
  produces (eg_cycle n) (λ x, x < n)%N
    (λ x y, x < n ∧ y < n ∧ (y = (x + 1) mod n ∨ x = (y + 1) mod n))%N.
Proof.
  destruct (eg_cycle_spec n) as (g & ? & ? & ? & HE).
  exists g. split_and!; [done|by apply eg_reachable_wf|done|].
  assert (∀ a, (a < n → (a + 1 < n ∧ (a + 1) mod n = a + 1) ∨ (a = n - 1 ∧ (a + 1) mod n = 0))%N) as Hm.
  { intros a Ha. destruct (decide (a + 1 = n)%N) as [E|].
    - right. split; [lia|]. rewrite E. apply N.mod_same. lia.
    - left. split; [lia|]. apply N.mod_small. lia. }
  intros x y. rewrite (HE x y). split.
  - intros (Hx & Hy & Hd). split_and!; [done..|].
    destruct (Hm x Hx) as [[??]|[??]], (Hm y Hy) as [[??]|[??]]; lia.
  - intros (Hx & Hy & Hd). split_and!; [done..|].
    destruct (Hm x Hx) as [[??]|[??]], (Hm y Hy) as [[??]|[??]]; lia.
Qed.

Theorem C15_matching (n : N) :
  (2 * n <= 4294967296)%N →
  produces (eg_matching n) (λ x, x < 2 * n)%N
    (λ x y, x < 2 * n ∧ y < 2 * n ∧ (y = x + n ∨ x = y + n))%N.
Proof.
  intros Hn. destruct (eg_matching_spec n Hn) as (g & ? & ? & ? & ?).
  exists g. split_and!; [done|by apply eg_reachable_wf|done|done].
Qed.

Theorem C15_clique (n : N) :
  produces (eg_clique n) (λ x, x < n)%N (λ x y, x < n ∧ y < n ∧ x ≠ y)%N.
Proof.
  destruct (eg_clique_spec n) as (g & ? & ? & ? & ?).
  exists g. split_and!; [done|by apply eg_reachable_wf|done|done].
Qed.

Theorem C15_independent (n : N) :
  produces (Ok (eg_independent n)) (λ x, x < n)%N (λ _ _, False).
Proof.
  destruct (eg_independent_spec n) as (? & ? & HE).
  eexists. split; [done|]. split_and!; [by apply eg_reachable_wf|done|].
  intros x y. specialize (HE x y). unfold ea in HE. naive_solver.
Qed.

Theorem C15_biclique_partial (s t : N) :
  (0 < s)%N → (0 < t)%N → (s + t < 4294967296)%N →
  produces (eg_biclique s t) (λ x, x < s + t)%N
    (λ x y, (x < s ∧ s <= y < s + t) ∨ (y < s ∧ s <= x < s + t))%N.
Proof.
  intros Hs Ht Hst. destruct (eg_biclique_spec s t Hst) as (g & ? & ? & HV & ?).
  exists g. split_and!; [done|by apply eg_reachable_wf| |done].
  intros x. rewrite (HV x). naive_solver.
Qed.

(** biclique(3,0) should have three isolated vertices; it has none. *)
Theorem C15_biclique_refuted :
  produces (eg_biclique 3 0) (λ _, False) (λ _ _, False).
Proof.
  destruct (eg_biclique_spec 3 0) as (g & ? & ? & HV & HE); [lia|].
  exists g. split_and!; [done|by apply eg_reachable_wf| |].
  - intros x. rewrite (HV x). lia.
  - intros x y. rewrite (HE x y). lia.
Qed.

(** star(n) = biclique(1, n): documented to have n+1 vertices. *)
Theorem C15_star_partial (n : N) :
  (0 < n)%N → (1 + n < 4294967296)%N →
  produces (eg_star n) (λ x, x < n + 1)%N
    (λ x y, (x = 0 ∧ 1 <= y < n + 1) ∨ (y = 0 ∧ 1 <= x < n + 1))%N.
Proof.
  intros Hn Hb. destruct (C15_biclique_partial 1 n) as (g & Hok & ? & HV & HE); [lia..|].
  exists g. split_and!; [exact Hok|done| |].
  - intros x. rewrite HV. lia.
  - intros x y. rewrite HE. lia.
Qed.

Theorem C15_star_refuted : produces (eg_star 0) (λ _, False) (λ _ _, False).
Proof.
  destruct (eg_biclique_spec 1 0) as (g & ? & ? & HV & HE); [lia|].
  exists g. split_and!; [done|by apply eg_reachable_wf| |].
  - intros x. rewrite (HV x). lia.
  - intros x y. rewrite (HE x y). lia.
Qed.

(** [in_part 0 sizes i x]: x lies in the i-th of the consecutive blocks. *)
Theorem C15_complete_kpartite_partial (sizes : list N) :
  (sumN sizes < 4294967296)%N →
  (∃ i j s t, i ≠ j ∧ sizes !! i = Some s ∧ sizes !! j = Some t ∧ (0 < s)%N ∧ (0 < t)%N) →
  produces (eg_complete_kpartite sizes)
    (λ x, x < sumN sizes)%N
    (λ x y, ∃ i j, i ≠ j ∧ in_part 0 sizes i x ∧ in_part 0 sizes j y).
Proof.
  intros Hsum (i0 & j0 & s & t & Hij & Hi & Hj & Hs & Ht).
  destruct (eg_kpartite_spec sizes) as (g & ? & ? & HV & HE); [|done|].
  { destruct sizes as [|? [|? ?]]; cbn; try lia. destruct i0, j0; cbn in *; try done; lia. }
  exists g. split_and!; [done|by apply eg_reachable_wf| |done].
  assert (∀ l x, (∃ i, in_part l sizes i x) ↔ (l <= x < l + sumN sizes)%N) as Hall.
  { clear. induction sizes as [|s sizes IH]; intros l x.
    - cbn. split; [naive_solver|lia].
    - change (sumN (s :: sizes)) with (s + sumN sizes)%N. split.
      + intros [[|i] Hi]; cbn in Hi; [lia|].
        destruct (IH (l + s)%N x) as [H1 _]. specialize (H1 (ex_intro _ i Hi)). lia.
      + intros Hx. destruct (decide (x < l + s)%N); [exists 0; cbn; lia|].
        destruct (IH (l + s)%N x) as [_ H2]. destruct H2 as [i Hi]; [lia|]. by exists (S i). }
  assert (∀ l i s, sizes !! i = Some s → (0 < s)%N → ∃ y, in_part l sizes i y) as Hne.
  { clear. induction sizes as [|a sizes IH]; intros l [|i] s Hi Hs; cbn in *; simplify_eq.
    - exists l. lia.
    - eauto. }
  intros x. rewrite (HV x). split.
  - intros (y & i & j & _ & Hx & _).
    assert (0 <= x < 0 + sumN sizes)%N by (apply Hall; eauto). lia.
  - intros Hx. destruct (proj2 (Hall 0%N x)) as [i Hix]; [lia|].
    destruct (decide (i = i0)) as [->|Hne0].
    + destruct (Hne 0%N j0 t Hj Ht) as [y Hy]. exists y, i0, j0. done.
    + destruct (Hne 0%N i0 s Hi Hs) as [y Hy]. exists y, i, i0. done.
Qed.

(** complete_kpartite([3]) is a clique, not an independent set. *)
Theorem C15_complete_kpartite_refuted :
  produces (eg_complete_kpartite [3%N]) (λ x, x < 3)%N (λ x y, x < 3 ∧ y < 3 ∧ x ≠ y)%N.
Proof. exact (C15_clique 3). Qed.

(** [grid_adj s t x y]: y is the cell right of or below x in the s x t grid. *)
Theorem C15_grid_partial (s t : N) :
  (s * t < 4294967296)%N → (s * t ≠ 1)%N →
  produces (eg_grid s t) (λ x, x < s * t)%N (λ x y, grid_adj s t x y ∨ grid_adj s t y x).
Proof.
  intros Hst Hne. destruct (eg_grid_spec s t Hst) as (g & ? & ? & HV & ?).
  exists g. split_and!; [done|by apply eg_reachable_wf| |done].
  intros x. rewrite (HV x). naive_solver.
Qed.

(** grid(1,1) should be one vertex; it is empty. *)
Theorem C15_grid_refuted : produces (eg_grid 1 1) (λ _, False) (λ _ _, False).
Proof.
  destruct (eg_grid_spec 1 1) as (g & ? & ? & HV & HE); [lia|].
  exists g. split_and!; [done|by apply eg_reachable_wf| |].
  - intros x. rewrite (HV x). lia.
  - intros x y. rewrite (HE x y). unfold grid_adj. split; [|done].
    intros [(r & c & ? & ? & ? & [[? ?]|[? ?]])|(r & c & ? & ? & ? & [[? ?]|[? ?]])]; lia.
Qed.

End with_iter.

(** ** Concrete cases meeting the hypotheses *)
Local Existing Instance std_iter.
Example ex_g_reachable : eg_reachable ex_g ∧ eg_reachable ex_g2.
Proof.
  split.
  - destruct (C01_editgraph_refines ex_ops) as (g & Hr & _). exists ex_ops, (a_run a_empty ex_ops).2.
    unfold ex_g. rewrite Hr. reflexivity.
  - destruct (C01_editgraph_refines ex_ops2) as (g & Hr & _). exists ex_ops2, (a_run a_empty ex_ops2).2.
    unfold ex_g2. rewrite Hr. reflexivity.
Qed.
Example ex_g_facts : eg_num_edges ex_g = 3 ∧ eg_num_vertices ex_g = 4 ∧
  eg_adjacent ex_g 3 3 = true ∧ eg_degree ex_g 3 = 3 ∧ eg_contains ex_g 7 = true ∧ eg_contains ex_g 4 = false.
Proof. vm_compute. done. Qed.
Example ex_C07_loopless : ∀ u, eg_adjacent ex_g2 u u = false.
Proof.
  assert (Hwf : eg_wf ex_g2) by (apply (eg_reachable_wf), ex_g_reachable).
  intros u. destruct (eg_adjacent ex_g2 u u) eqn:E; [|done].
  pose proof (ea_ev ex_g2 u u Hwf E) as Hv.
  apply (eg_vertices _ _ Hwf) in Hv. vm_compute in Hv.
  repeat (apply elem_of_cons in Hv as [->|Hv]; [vm_compute in E; done|]). set_solver.
Qed.
Example ex_C09 : (∀ v, v ∈ [1; 2]%N → eg_contains ex_g v = true) ∧
  (h ← eg_contract ex_g [1; 2]%N; Ok (eg_contains h.1 2, eg_adjacent h.1 1 3)) = Ok (false, true).
Proof. split; [|vm_compute; done]. intros v Hv. set_unfold in Hv. destruct Hv as [->|[->|[]]]; done. Qed.
Example ex_C11 : (S ← neighbourhood (eg_graph ex_g) [3; 7]%N; Ok (elements S)) = Ok [2%N].
Proof. vm_compute. done. Qed.
Example ex_C12 : (S ← r_neighbours (eg_graph ex_g) 1 2; Ok (elements S)) = Ok [1; 3; 2]%N.
Proof. vm_compute. done. Qed.
Example ex_C13 : (h ← eg_disj_union ex_g (eg_graph ex_g2);
  Ok (eg_adjacent h 8 9, eg_contains h 13, eg_adjacent h 1 2)) = Ok (true, true, true).
Proof. vm_compute. done. Qed.
Example ex_C13_hyp : Forall2 (λ G b, graph_wf G ∧ ∀ v, contains G v = true → (v < b)%N)
  [eg_graph ex_g2; eg_graph ex_g2] [6; 6]%N ∧ (sumN [6; 6] <= 4294967296)%N.
Proof.
  assert (Hwf : eg_wf ex_g2) by (apply (eg_reachable_wf), ex_g_reachable).
  assert (graph_wf (eg_graph ex_g2) ∧ ∀ v, contains (eg_graph ex_g2) v = true → (v < 6)%N).
  { split; [by apply eg_graph_wf|]. intros v Hv.
    change (ev ex_g2 v) in Hv. apply (eg_vertices _ _ Hwf) in Hv. vm_compute in Hv.
    repeat (apply elem_of_cons in Hv as [->|Hv]; [lia|]). set_solver. }
  split; [constructor; [done|constructor; [done|constructor]]|done].
Qed.
Example ex_C14 : (r ← eg_normalize ex_g; Ok (eg_adjacent r.1 2 2, r.2 !! 3%N, r.2 !! 2%N)) = Ok (true, Some 7%N, Some 3%N).
Proof. vm_compute. done. Qed.
Example ex_C15_grid : (g ← eg_grid 2 3; Ok (eg_adjacent g 1 4, eg_adjacent g 2 3, eg_num_edges g)) = Ok (true, false, 7).
Proof. vm_compute. done. Qed.
Example ex_C15_kpartite : (g ← eg_complete_kpartite [1; 2; 3]%N; Ok (eg_num_vertices g, eg_num_edges g)) = Ok (6, 11).
Proof. vm_compute. done. Qed.

Print Assumptions C01_editgraph_refines.
Print Assumptions C01_return_value_is_change.
Print Assumptions C02_counters.
Print Assumptions C03_enumeration.
Print Assumptions C04_eq_is_graph_equality.
Print Assumptions C05_clone_equal.
Print Assumptions C06_edges_exactly_once.
Print Assumptions C07_vertices_and_edges_loopless_partial.
Print Assumptions C07_vertices_and_edges_no_loops_reported_partial.
Print Assumptions C07_vertices_and_edges_refuted.
Print Assumptions C08_add_vertices.
Print Assumptions C08_add_edges.
Print Assumptions C08_from_iter.
Print Assumptions C08_remove_loops.
Print Assumptions C08_remove_isolates.
Print Assumptions C09_contract_into.
Print Assumptions C09_contract.
Print Assumptions C09_contract_pair_partial.
Print Assumptions C09_contract_pair_refuted.
Print Assumptions C09_panics.
Print Assumptions C10_subgraph.
Print Assumptions C10_reachable_wf.
Print Assumptions C11_neighbourhood.
Print Assumptions C11_closed_neighbourhood.
Print Assumptions C12_r_neighbourhood.
Print Assumptions C12_r_neighbours.
Print Assumptions C13_disj_union.
Print Assumptions C13_disj_unions.
Print Assumptions C13_disj_union_overflow_refuted.
Print Assumptions C14_normalize.
Print Assumptions C15_path.
Print Assumptions C15_cycle.
Print Assumptions C15_matching.
Print Assumptions C15_clique.
Print Assumptions C15_independent.
Print Assumptions C15_biclique_partial.
Print Assumptions C15_biclique_refuted.
Print Assumptions C15_star_partial.
Print Assumptions C15_star_refuted.
Print Assumptions C15_complete_kpartite_partial.
Print Assumptions C15_complete_kpartite_refuted.
Print Assumptions C15_grid_partial.
Print Assumptions C15_grid_refuted.
