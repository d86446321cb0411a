(** Reachable EditGraphs, their specification at the level of the API, and the
    proof that they are well-formed graphs. *)
From Verif Require Import Base Spec M_Graph M_Iterators M_EditGraph S_Graph P_EditGraph.

Definition eg_wf (g : editgraph) : Prop := ∃ G, eg_rep g G.

Lemma a_graph_eq G1 G2 : av G1 = av G2 → ae G1 = ae G2 → G1 = G2.
Proof. destruct G1, G2; cbn; naive_solver. Qed.

Lemma ev_rep g G u : eg_rep g G → ev g u ↔ u ∈ av G.
Proof. intros HR. unfold ev. by rewrite (rep_contains _ _ _ HR), bool_decide_eq_true. Qed.
Lemma ea_rep g G u v : eg_rep g G → ea g u v ↔ upair u v ∈ ae G.
Proof. intros HR. unfold ea. by rewrite (rep_adjacent _ _ _ _ HR), bool_decide_eq_true. Qed.

(** The abstract graph is determined by the queries. *)
Lemma rep_unique_graph g h G1 G2 :
  eg_rep g G1 → eg_rep h G2 →
  (∀ u, ev g u ↔ ev h u) → (∀ u v, ea g u v ↔ ea h u v) → G1 = G2.
Proof.
  intros H1 H2 Hv He. apply a_graph_eq; apply set_eq.
  - intros u. by rewrite <- (ev_rep _ _ _ H1), <- (ev_rep _ _ _ H2).
  - intros e. split; intros He'.
    + destruct (rep_wf _ _ H1 e He') as [Hle _].
      rewrite <- (upair_id e Hle) in *.
      by apply (ea_rep _ _ _ _ H2), He, (ea_rep _ _ _ _ H1).
    + destruct (rep_wf _ _ H2 e He') as [Hle _].
      rewrite <- (upair_id e Hle) in *.
      by apply (ea_rep _ _ _ _ H1), He, (ea_rep _ _ _ _ H2).
Qed.

(** The concrete state is determined by the abstract graph. *)
Lemma rep_unique g h G : eg_rep g G → eg_rep h G → g = h.
Proof.
  intros H1 H2. destruct g as [a1 d1 m1] eqn:Eg, h as [a2 d2 m2] eqn:Eh.
  rewrite <- Eg in H1. rewrite <- Eh in H2.
  assert (a1 = a2) as ->.
  { apply map_eq. intros u.
    pose proof (rep_dom _ _ H1 u) as D1. pose proof (rep_dom _ _ H2 u) as D2.
    pose proof (rep_adj _ _ H1 u) as A1. pose proof (rep_adj _ _ H2 u) as A2.
    unfold eg_nbr in *. subst g h; cbn in *.
    destruct (a1 !! u) as [X1|] eqn:E1, (a2 !! u) as [X2|] eqn:E2; cbn in *; try done.
    - f_equal. apply set_eq. intros v. by rewrite A1, A2.
    - exfalso. destruct (proj2 D2) as [? ?]; [apply D1; eauto|done].
    - exfalso. destruct (proj2 D1) as [? ?]; [apply D2; eauto|done]. }
  assert (d1 = d2) as ->.
  { apply map_eq. intros u. pose proof (rep_degs _ _ H1 u) as D1.
    pose proof (rep_degs _ _ H2 u) as D2. subst g h; cbn in *. by rewrite D1, D2. }
  pose proof (rep_m _ _ H1). pose proof (rep_m _ _ H2). subst g h; cbn in *. by subst.
Qed.

Lemma eg_wf_ext g h : eg_wf g → eg_wf h →
  (∀ u, ev g u ↔ ev h u) → (∀ u v, ea g u v ↔ ea h u v) → g = h.
Proof.
  intros [G1 H1] [G2 H2] Hv He. pose proof (rep_unique_graph _ _ _ _ H1 H2 Hv He) as ->.
  by eapply rep_unique.
Qed.

Lemma a_run_app G os1 os2 : (a_run G (os1 ++ os2)).1 = (a_run (a_run G os1).1 os2).1.
Proof.
  revert G; induction os1 as [|o os1 IH]; intros G; [done|]. cbn.
  destruct (a_step G o) as [G1 b]; cbn. specialize (IH G1).
  destruct (a_run G1 (os1 ++ os2)), (a_run G1 os1); cbn in *. done.
Qed.

Lemma a_run_add_vertices G vs :
  (a_run G (AddVertex <$> vs)).1 = AGraph (list_to_set vs ∪ av G) (ae G).
Proof.
  revert G; induction vs as [|v vs IH]; intros G; cbn.
  - apply a_graph_eq; cbn; [set_solver|done].
  - specialize (IH (a_add_vertex G v)). destruct (a_run _ _); cbn in *. subst.
    f_equal. set_solver.
Qed.

Lemma a_run_add_edges G (es : list (N * N)) :
  (∀ e, e ∈ es → (e.1 <= e.2)%N ∧ e.1 ∈ av G ∧ e.2 ∈ av G) →
  (a_run G ((λ e, AddEdge e.1 e.2) <$> es)).1 = AGraph (av G) (list_to_set es ∪ ae G).
Proof.
  revert G; induction es as [|e es IH]; intros G Hes; cbn.
  - apply a_graph_eq; cbn; [done|set_solver].
  - specialize (IH (a_add_edge G e.1 e.2)). destruct (a_run _ _); cbn in *.
    destruct (Hes e) as (Hle & H1 & H2); [set_solver|].
    rewrite IH. 2:{ intros e' He'. specialize (Hes e'). set_solver. }
    cbn. rewrite upair_id by done. f_equal; set_solver.
Qed.

Section with_iter.
Context `{HI : HashIter}.

Lemma eg_reachable_wf g : eg_reachable g ↔ eg_wf g.
Proof.
  split.
  - intros (os & bs & Hr). destruct (eg_run_rep os _ _ eg_new_rep) as (g' & Hr' & HR).
    rewrite Hr in Hr'. simplify_eq. by eexists.
  - intros [G HR].
    set (os := (AddVertex <$> elements (av G)) ++ ((λ e, AddEdge e.1 e.2) <$> elements (ae G))).
    destruct (eg_run_rep os _ _ eg_new_rep) as (g' & Hr & HR').
    assert ((a_run a_empty os).1 = G) as HG.
    { unfold os. rewrite a_run_app, a_run_add_vertices, a_run_add_edges; cbn.
      - apply a_graph_eq; cbn; rewrite list_to_set_elements_L; set_solver.
      - intros e. rewrite elem_of_elements, list_to_set_elements_L.
        intros He. destruct (rep_wf _ _ HR e He) as (?&?&?). set_solver. }
    rewrite HG in HR'. rewrite (rep_unique _ _ _ HR HR'). do 2 eexists. exact Hr.
Qed.

(** ** API-level specifications of the editing calls *)
Lemma eg_new_wf : eg_wf eg_new.
Proof. eexists. apply eg_new_rep. Qed.

Lemma eg_new_ev u : ¬ ev eg_new u.
Proof. rewrite (ev_rep _ _ _ eg_new_rep). set_solver. Qed.
Lemma eg_new_ea u v : ¬ ea eg_new u v.
Proof. rewrite (ea_rep _ _ _ _ eg_new_rep). set_solver. Qed.

Lemma eg_add_vertex_spec g u :
  eg_wf g →
  eg_wf (eg_add_vertex g u).1 ∧
  (eg_add_vertex g u).2 = negb (eg_contains g u) ∧
  (∀ x, ev (eg_add_vertex g u).1 x ↔ ev g x ∨ x = u) ∧
  (∀ x y, ea (eg_add_vertex g u).1 x y ↔ ea g x y) ∧
  eg_num_edges (eg_add_vertex g u).1 = eg_num_edges g.
Proof.
  intros [G HR]. destruct (eg_add_vertex_rep g G u HR) as [HR' Hb].
  split_and!.
  - by eexists.
  - rewrite Hb, (rep_contains _ _ _ HR). by rewrite bool_decide_not.
  - intros x. rewrite (ev_rep _ _ _ HR), (ev_rep _ _ _ HR'). cbn. set_solver.
  - intros x y. by rewrite (ea_rep _ _ _ _ HR), (ea_rep _ _ _ _ HR').
  - unfold eg_num_edges. by rewrite (rep_m _ _ HR), (rep_m _ _ HR').
Qed.

Lemma eg_add_edge_spec g u v :
  eg_wf g →
  ∃ g', eg_add_edge g u v = Ok (g', negb (eg_adjacent g u v)) ∧ eg_wf g' ∧
  (∀ x, ev g' x ↔ ev g x ∨ x = u ∨ x = v) ∧
  (∀ x y, ea g' x y ↔ ea g x y ∨ (x = u ∧ y = v) ∨ (x = v ∧ y = u)) ∧
  eg_num_edges g' = eg_num_edges g + (if eg_adjacent g u v then 0 else 1).
Proof.
  intros [G HR]. destruct (eg_add_edge_rep g G u v HR) as (g' & -> & HR').
  exists g'. split_and!.
  - by rewrite (rep_adjacent _ _ _ _ HR), bool_decide_not.
  - by eexists.
  - intros x. rewrite (ev_rep _ _ _ HR), (ev_rep _ _ _ HR'). cbn. set_solver.
  - intros x y. rewrite (ea_rep _ _ _ _ HR), (ea_rep _ _ _ _ HR'). cbn.
    rewrite elem_of_union, elem_of_singleton, upair_inj. naive_solver.
  - unfold eg_num_edges. rewrite (rep_m _ _ HR), (rep_m _ _ HR'), (rep_adjacent _ _ _ _ HR). cbn.
    case_bool_decide.
    + assert ({[upair u v]} ∪ ae G = ae G) as -> by set_solver. lia.
    + rewrite size_union, size_singleton by set_solver. lia.
Qed.

Lemma eg_remove_edge_spec g u v :
  eg_wf g →
  ∃ g', eg_remove_edge g u v = Ok (g', eg_adjacent g u v) ∧ eg_wf g' ∧
  (∀ x, ev g' x ↔ ev g x) ∧
  (∀ x y, ea g' x y ↔ ea g x y ∧ ¬ ((x = u ∧ y = v) ∨ (x = v ∧ y = u))).
Proof.
  intros [G HR]. destruct (eg_remove_edge_rep g G u v HR) as (g' & -> & HR').
  exists g'. split_and!.
  - by rewrite (rep_adjacent _ _ _ _ HR).
  - by eexists.
  - intros x. by rewrite (ev_rep _ _ _ HR), (ev_rep _ _ _ HR').
  - intros x y. rewrite (ea_rep _ _ _ _ HR), (ea_rep _ _ _ _ HR'). cbn.
    rewrite elem_of_difference, elem_of_singleton, upair_inj. naive_solver.
Qed.

Lemma eg_remove_vertex_spec g u :
  eg_wf g →
  ∃ g', eg_remove_vertex g u = Ok (g', eg_contains g u) ∧ eg_wf g' ∧
  (∀ x, ev g' x ↔ ev g x ∧ x ≠ u) ∧
  (∀ x y, ea g' x y ↔ ea g x y ∧ x ≠ u ∧ y ≠ u).
Proof.
  intros [G HR]. destruct (eg_remove_vertex_rep g G u HR) as (g' & -> & HR').
  exists g'. split_and!.
  - by rewrite (rep_contains _ _ _ HR).
  - by eexists.
  - intros x. rewrite (ev_rep _ _ _ HR), (ev_rep _ _ _ HR'). cbn. set_solver.
  - intros x y. rewrite (ea_rep _ _ _ _ HR), (ea_rep _ _ _ _ HR'). cbn.
    rewrite elem_of_filter. destruct (upair_cases x y) as [-> | ->]; cbn; naive_solver.
Qed.

(** Adding a list of edges. *)
Lemma eg_add_edge_fold_spec es g :
  eg_wf g →
  ∃ g', fold_res (λ h e, r ← eg_add_edge h e.1 e.2; Ok r.1) es g = Ok g' ∧ eg_wf g' ∧
  (∀ x, ev g' x ↔ ev g x ∨ ∃ e, e ∈ es ∧ (x = e.1 ∨ x = e.2)) ∧
  (∀ x y, ea g' x y ↔ ea g x y ∨ ∃ e, e ∈ es ∧ ((x, y) = e ∨ (y, x) = e)).
Proof.
  revert g. induction es as [|[u v] es IH]; intros g Hg; cbn.
  - exists g. split_and!; [done|done|set_solver|set_solver].
  - destruct (eg_add_edge_spec g u v Hg) as (g1 & -> & Hg1 & HV & HE & _). cbn.
    destruct (IH g1 Hg1) as (g2 & -> & Hg2 & HV2 & HE2).
    exists g2. split_and!; [done|done| |].
    + intros x. rewrite HV2, HV. split.
      * intros [[?|[?|?]]|(e & ? & ?)]; [by left|right; exists (u,v); set_solver..|].
        right. exists e. set_solver.
      * intros [?|(e & [->|He]%elem_of_cons & ?)]; cbn in *; [auto|naive_solver|right; eauto].
    + intros x y. rewrite HE2, HE. split.
      * intros [[?|[?|?]]|(e & ? & ?)]; [by left|right; exists (u,v); set_solver..|].
        right. exists e. set_solver.
      * intros [?|(e & [->|He]%elem_of_cons & ?)]; cbn in *; [auto|naive_solver|right; eauto].
Qed.

(** ** Counting vertices and edges *)
Lemma rep_dom_eq g G : eg_rep g G → dom (eg_adj g) = av G.
Proof. intros HR. apply set_eq. intros u. by rewrite elem_of_dom, (rep_dom _ _ HR). Qed.

Lemma rep_num_vertices g G : eg_rep g G → eg_num_vertices g = size (av G).
Proof. intros HR. unfold eg_num_vertices. by rewrite <- (rep_dom_eq _ _ HR), size_dom. Qed.

Lemma rep_degree g G u : eg_rep g G → eg_degree g u = a_degree G u.
Proof.
  intros HR. unfold eg_degree. rewrite (rep_degs _ _ HR). case_decide; cbn; [done|].
  symmetry. apply a_degree_0; [apply HR|done].
Qed.

(** Degree as number of neighbours plus one for a loop. *)
Lemma size_filter_bij {A B} `{Countable A} `{Countable B} (X : gset A) (Y : gset B) (f : A → B) :
  (∀ x y, x ∈ X → y ∈ X → f x = f y → x = y) →
  (∀ b, b ∈ Y ↔ ∃ a, a ∈ X ∧ b = f a) → size X = size Y.
Proof.
  intros Hinj HY. unfold size, set_size. cbn.
  rewrite <- (fmap_length f (elements X)). apply Permutation_length, NoDup_Permutation.
  - apply NoDup_fmap_2_strong; [|apply NoDup_elements].
    intros x y Hx Hy. rewrite elem_of_elements in Hx, Hy. auto.
  - apply NoDup_elements.
  - intros b. rewrite elem_of_list_fmap, elem_of_elements, HY.
    setoid_rewrite elem_of_elements. naive_solver.
Qed.

Lemma a_degree_nbr G u (X : gset N) :
  a_wf G → (∀ v, v ∈ X ↔ upair u v ∈ ae G) →
  a_degree G u = size X + ind (u ∈ X).
Proof.
  intros Hwf HX. unfold a_degree.
  assert (size (filter (λ e, e.1 = u) (ae G)) = size (filter (λ v, (u <= v)%N) X)) as ->.
  { symmetry. apply (size_filter_bij _ _ (λ v, (u, v))); [naive_solver|].
    intros [a b]. rewrite elem_of_filter. cbn. setoid_rewrite elem_of_filter.
    setoid_rewrite HX. split.
    - intros [-> He]. destruct (Hwf _ He) as [Hle _]; cbn in Hle. exists b.
      rewrite (upair_le_id u b Hle). naive_solver.
    - intros (v & [Hle He] & ?). simplify_eq. by rewrite (upair_le_id u v Hle) in He. }
  assert (size (filter (λ e, e.2 = u) (ae G)) = size (filter (λ v, (v <= u)%N) X)) as ->.
  { symmetry. apply (size_filter_bij _ _ (λ v, (v, u))); [naive_solver|].
    intros [a b]. rewrite elem_of_filter. cbn. setoid_rewrite elem_of_filter.
    setoid_rewrite HX. split.
    - intros [-> He]. destruct (Hwf _ He) as [Hle _]; cbn in Hle. exists a.
      rewrite upair_comm, (upair_le_id a u Hle). naive_solver.
    - intros (v & [Hle He] & ?). simplify_eq.
      by rewrite upair_comm, (upair_le_id v u Hle) in He. }
  assert (size (filter (λ v, (v <= u)%N) X) =
          size (filter (λ v, (v < u)%N) X) + ind (u ∈ X)) as ->.
  { unfold ind. case_decide as Hu.
    - assert (filter (λ v, (v <= u)%N) X = {[u]} ∪ filter (λ v, (v < u)%N) X) as ->.
      { apply set_eq. intros v. rewrite elem_of_union, elem_of_singleton, !elem_of_filter.
        destruct (decide (v = u)) as [->|]; [naive_solver lia|].
        split; [intros [? ?]; right; split; [lia|done]|intros [?|[? ?]]; [done|split; [lia|done]]]. }
      rewrite size_union, size_singleton; [lia|]. intros v. rewrite elem_of_singleton, elem_of_filter.
      intros -> [? _]. lia.
    - assert (filter (λ v, (v <= u)%N) X = filter (λ v, (v < u)%N) X) as ->; [|lia].
      apply set_eq. intros v. rewrite !elem_of_filter. split; intros [Hv1 Hv2]; (split; [|done]); [|lia].
      destruct (decide (v = u)) as [->|]; [done|lia]. }
  assert (size X = size (filter (λ v, (u <= v)%N) X) + size (filter (λ v, (v < u)%N) X)); [|lia].
  rewrite <- size_union.
  - f_equal. apply set_eq. intros v. rewrite elem_of_union, !elem_of_filter.
    destruct (N.le_gt_cases u v); naive_solver.
  - intros v. rewrite !elem_of_filter. intros [? _] [? _]. lia.
Qed.

(** The trait view of a reachable EditGraph is a well-formed graph. *)
Lemma eg_graph_wf g : eg_wf g → graph_wf (eg_graph g).
Proof.
  intros [G HR]. split.
  - intros u. cbn. rewrite elem_of_hash_iter, (rep_dom_eq _ _ HR).
    unfold vtx; cbn. fold (ev g u). by rewrite (ev_rep _ _ _ HR).
  - cbn. apply NoDup_hash_iter.
  - cbn. rewrite hash_iter_length. unfold eg_num_vertices. by rewrite size_dom.
  - intros u v. unfold adj, vtx; cbn. fold (ea g u v) (ev g u).
    rewrite (ea_rep _ _ _ _ HR), (ev_rep _ _ _ HR). intros He.
    by apply (rep_ends _ _ _ _ HR He).
  - intros u v. unfold adj; cbn. fold (ea g u v) (ea g v u).
    rewrite !(ea_rep _ _ _ _ HR). by rewrite upair_comm.
  - intros u Hu. unfold vtx in Hu; cbn in *. fold (ev g u) in Hu.
    rewrite (ev_rep _ _ _ HR) in Hu.
    rewrite (rep_lookup _ _ _ HR Hu). eexists; split; [done|].
    split; [apply NoDup_hash_iter|]. split.
    + intros v. rewrite elem_of_hash_iter, (rep_adj _ _ HR).
      unfold adj; cbn. fold (ea g u v). by rewrite (ea_rep _ _ _ _ HR).
    + rewrite hash_iter_length, (rep_degree _ _ _ HR).
      rewrite (a_degree_nbr G u (eg_nbr g u) (rep_wf _ _ HR)) by apply (rep_adj _ _ HR).
      f_equal. unfold ind. rewrite (rep_adjacent _ _ _ _ HR).
      case_decide as Hl; rewrite (rep_adj _ _ HR) in Hl.
      * by rewrite bool_decide_eq_true_2.
      * by rewrite bool_decide_eq_false_2.
  - exists (ae G). split; [|apply HR]. intros u v. unfold adj; cbn. fold (ea g u v).
    rewrite (ea_rep _ _ _ _ HR). split.
    + intros He. destruct (rep_wf _ _ HR _ He) as (Hle & _); cbn in Hle.
      by rewrite (upair_le_id u v Hle).
    + intros [Hle He]. by rewrite (upair_le_id u v Hle) in He.
Qed.

End with_iter.
