(** Compositional reasoning about code that only adds vertices and edges to an
    EditGraph. *)
From Verif Require Import Base Spec M_Graph M_Iterators M_EditGraph S_Graph P_EditGraph P_EditGraph2 P_Graph.

(** [adds f PV PE]: on every well-formed graph [f] succeeds and adds exactly the
    vertices [PV] and the edges [PE]. *)
Definition adds (f : editgraph → res editgraph) (PV : N → Prop) (PE : N → N → Prop) : Prop :=
  ∀ h, eg_wf h → ∃ h', f h = Ok h' ∧ eg_wf h' ∧
    (∀ x, ev h' x ↔ ev h x ∨ PV x) ∧ (∀ x y, ea h' x y ↔ ea h x y ∨ PE x y).

Lemma adds_ext f g PV PE PV' PE' :
  adds f PV PE → (∀ h, f h = g h) → (∀ x, PV x ↔ PV' x) → (∀ x y, PE x y ↔ PE' x y) →
  adds g PV' PE'.
Proof.
  intros H Hf HV HE h Hh. destruct (H h Hh) as (h' & Hok & Hwf & H1 & H2).
  exists h'. rewrite <- Hf. split_and!; [done|done| |].
  - intros x. by rewrite H1, HV.
  - intros x y. by rewrite H2, HE.
Qed.

Lemma adds_edge u v :
  adds (λ h, r ← eg_add_edge h u v; Ok r.1)
    (λ x, x = u ∨ x = v) (λ x y, (x = u ∧ y = v) ∨ (x = v ∧ y = u)).
Proof.
  intros h Hh. destruct (eg_add_edge_spec h u v Hh) as (h' & -> & Hwf & H1 & H2 & _).
  cbn. exists h'. split_and!; auto.
Qed.

Lemma adds_vertex u :
  adds (λ h, Ok (eg_add_vertex h u).1) (λ x, x = u) (λ x y, False).
Proof.
  intros h Hh. destruct (eg_add_vertex_spec h u Hh) as (Hwf & _ & H1 & H2 & _).
  eexists; split; [done|]. split_and!; [done|done|]. intros x y. rewrite H2. naive_solver.
Qed.

Lemma adds_ret : adds Ok (λ _, False) (λ _ _, False).
Proof. intros h Hh. exists h. naive_solver. Qed.

Lemma adds_seq f g PV PE PV' PE' :
  adds f PV PE → adds g PV' PE' →
  adds (λ h, f h ≫= g) (λ x, PV x ∨ PV' x) (λ x y, PE x y ∨ PE' x y).
Proof.
  intros Hf Hg h Hh. destruct (Hf h Hh) as (h1 & -> & Hwf & H1 & H2). cbn.
  destruct (Hg h1 Hwf) as (h2 & -> & Hwf2 & H3 & H4). exists h2. split_and!; [done|done| |].
  - intros x. rewrite H3, H1. naive_solver.
  - intros x y. rewrite H4, H2. naive_solver.
Qed.

Lemma adds_fold {A} (f : editgraph → A → res editgraph) l (PV : A → N → Prop) (PE : A → N → N → Prop) :
  (∀ a, a ∈ l → adds (λ h, f h a) (PV a) (PE a)) →
  adds (fold_res f l) (λ x, ∃ a, a ∈ l ∧ PV a x) (λ x y, ∃ a, a ∈ l ∧ PE a x y).
Proof.
  induction l as [|a l IH]; intros Hl.
  - eapply adds_ext; [apply adds_ret|done|set_solver|set_solver].
  - assert (adds (λ h, f h a ≫= fold_res f l) (λ x, PV a x ∨ ∃ b, b ∈ l ∧ PV b x)
       (λ x y, PE a x y ∨ ∃ b, b ∈ l ∧ PE b x y)) as H.
    { apply (adds_seq (λ h, f h a)); [apply Hl; set_solver|]. apply IH. set_solver. }
    eapply adds_ext; [exact H|done| |]; setoid_rewrite elem_of_cons; naive_solver.
Qed.

Lemma adds_seq_ext f g PV PE PV' PE' (QV : N → Prop) (QE : N → N → Prop) :
  adds f PV PE → adds g PV' PE' →
  (∀ x, PV x ∨ PV' x ↔ QV x) → (∀ x y, PE x y ∨ PE' x y ↔ QE x y) →
  adds (λ h, f h ≫= g) QV QE.
Proof. intros Hf Hg HV HE. eapply adds_ext; [apply (adds_seq _ _ _ _ _ _ Hf Hg)|done|done|done]. Qed.

Lemma adds_fold_ext {A} (f : editgraph → A → res editgraph) l (PV : A → N → Prop) (PE : A → N → N → Prop)
    (QV : N → Prop) (QE : N → N → Prop) :
  (∀ a, a ∈ l → adds (λ h, f h a) (PV a) (PE a)) →
  (∀ x, (∃ a, a ∈ l ∧ PV a x) ↔ QV x) → (∀ x y, (∃ a, a ∈ l ∧ PE a x y) ↔ QE x y) →
  adds (fold_res f l) QV QE.
Proof. intros Hf HV HE. eapply adds_ext; [apply (adds_fold f l PV PE Hf)|done|done|done]. Qed.

Lemma adds_vertices vs :
  adds (λ h, Ok (foldl (λ h u, (eg_add_vertex h u).1) h vs)) (λ x, x ∈ vs) (λ _ _, False).
Proof.
  eapply adds_ext.
  - apply (adds_fold (λ h u, Ok (eg_add_vertex h u).1) vs (λ u x, x = u) (λ _ _ _, False)).
    intros a _. apply adds_vertex.
  - intros h. revert h. induction vs as [|v vs IH]; intros h; cbn; [done|]. apply IH.
  - naive_solver.
  - naive_solver.
Qed.

Lemma adds_new f PV PE :
  adds f PV PE →
  ∃ h, f eg_new = Ok h ∧ eg_wf h ∧ (∀ x, ev h x ↔ PV x) ∧ (∀ x y, ea h x y ↔ PE x y).
Proof.
  intros H. destruct (H eg_new eg_new_wf) as (h & Hok & Hwf & H1 & H2).
  exists h. split_and!; [done|done| |].
  - intros x. rewrite H1. pose proof (eg_new_ev x). naive_solver.
  - intros x y. rewrite H2. pose proof (eg_new_ea x y). naive_solver.
Qed.

(** Adding vertices with counting. *)
Lemma eg_add_vertices_fst g vs n :
  (foldl (λ s v, let r := eg_add_vertex s.1 v in (r.1, if r.2 : bool then s.2 + 1 else s.2)) (g, n) vs).1
  = foldl (λ h u, (eg_add_vertex h u).1) g vs.
Proof. revert g n. induction vs as [|v vs IH]; intros g n; cbn; [done|]. apply IH. Qed.

Lemma adds_add_vertices vs :
  adds (λ h, Ok (eg_add_vertices h vs).1) (λ x, x ∈ vs) (λ _ _, False).
Proof.
  eapply adds_ext; [apply (adds_vertices vs)| |done|done].
  intros h. unfold eg_add_vertices. by rewrite eg_add_vertices_fst.
Qed.

Lemma eg_add_edges_fst g n es :
  (r ← fold_res (λ s e, r ← eg_add_edge s.1 e.1 e.2; Ok (r.1, if r.2 : bool then s.2 + 1 else s.2)) es (g, n); Ok r.1)
  = fold_res (λ h e, r ← eg_add_edge h e.1 e.2; Ok r.1) es g.
Proof.
  revert g n. induction es as [|e es IH]; intros g n; cbn; [done|].
  destruct (eg_add_edge g e.1 e.2) as [[h b]| |]; cbn; [|done|done]. apply IH.
Qed.

Lemma adds_add_edges es :
  adds (λ h, r ← eg_add_edges h es; Ok r.1)
    (λ x, ∃ e, e ∈ es ∧ (x = e.1 ∨ x = e.2))
    (λ x y, ∃ e, e ∈ es ∧ ((x = e.1 ∧ y = e.2) ∨ (x = e.2 ∧ y = e.1))).
Proof.
  eapply adds_ext.
  - apply (adds_fold (λ h e, r ← eg_add_edge h e.1 e.2; Ok r.1)).
    intros e _. apply adds_edge.
  - intros h. unfold eg_add_edges. by rewrite eg_add_edges_fst.
  - naive_solver.
  - naive_solver.
Qed.

(** Basic facts about reachable EditGraphs. *)
Lemma ea_ev g u v : eg_wf g → ea g u v → ev g u.
Proof.
  intros [G HR]. rewrite (ea_rep _ _ _ _ HR), (ev_rep _ _ _ HR).
  intros He. by apply (rep_ends _ _ _ _ HR He).
Qed.
Lemma ea_sym g u v : eg_wf g → ea g u v → ea g v u.
Proof. intros [G HR]. rewrite !(ea_rep _ _ _ _ HR). by rewrite upair_comm. Qed.

Section with_iter.
Context `{HI : HashIter}.

Lemma eg_neighbours g u : eg_wf g → ev g u →
  ∃ l, neighbours (eg_graph g) u = Ok l ∧ NoDup l ∧ ∀ v, v ∈ l ↔ ea g u v.
Proof.
  intros Hg Hu. destruct (wf_neighbours _ (eg_graph_wf g Hg) u Hu) as (l & ? & ? & ? & ?).
  exists l. split_and!; auto.
Qed.

Lemma eg_vertices g u : eg_wf g → u ∈ vertices (eg_graph g) ↔ ev g u.
Proof. intros Hg. apply (wf_vertices _ (eg_graph_wf g Hg)). Qed.

(** Adding a vertex with all its neighbours: the loop body of clone and subgraph. *)
Lemma adds_star v L :
  adds (λ h, fold_res (λ h u, r ← eg_add_edge h u v; Ok r.1) L (eg_add_vertex h v).1)
    (λ x, x = v ∨ x ∈ L) (λ x y, (x ∈ L ∧ y = v) ∨ (x = v ∧ y ∈ L)).
Proof.
  eapply adds_ext.
  - apply (adds_seq (λ h, Ok (eg_add_vertex h v).1)).
    + apply adds_vertex.
    + apply (adds_fold (λ h u, r ← eg_add_edge h u v; Ok r.1)). intros u _. apply adds_edge.
  - done.
  - naive_solver.
  - naive_solver.
Qed.

Lemma eg_clone_spec g : eg_wf g → eg_clone g = Ok g.
Proof.
  intros Hg. unfold eg_clone.
  assert (adds (fold_res (λ h v,
      let h := (eg_add_vertex h v).1 in
      Nv ← neighbours (eg_graph g) v;
      fold_res (λ h u, r ← eg_add_edge h u v; Ok r.1) Nv h) (vertices (eg_graph g)))
    (λ x, ∃ v, v ∈ vertices (eg_graph g) ∧ (x = v ∨ ea g v x))
    (λ x y, ∃ v, v ∈ vertices (eg_graph g) ∧ ((ea g v x ∧ y = v) ∨ (x = v ∧ ea g v y)))) as H.
  { apply adds_fold. intros v Hv. rewrite eg_vertices in Hv by done.
    destruct (eg_neighbours g v Hg Hv) as (l & Hn & _ & Hl).
    eapply adds_ext; [apply (adds_star v l)| | |].
    - intros h. cbv beta zeta. rewrite Hn. done.
    - intros x. cbv beta. by rewrite Hl.
    - intros x y. cbv beta. by rewrite !Hl. }
  apply adds_new in H as (h & Hok & Hwf & H1 & H2).
  transitivity (Ok h); [exact Hok|]. f_equal.
  apply eg_wf_ext; [done|done| |].
  - intros x. rewrite H1. setoid_rewrite eg_vertices; [|done]. split.
    + intros (v & ? & [->|?]); [done|]. eapply ea_ev; [done|]. by apply ea_sym.
    + eauto.
  - intros x y. rewrite H2. setoid_rewrite eg_vertices; [|done]. split.
    + intros (v & ? & [[? ->]|[-> ?]]); [by apply ea_sym|done].
    + intros Hxy. exists x. split; [by eapply ea_ev|]. auto.
Qed.

Lemma subgraph_spec (G : graph) (X : list N) :
  graph_wf G → (∀ v, v ∈ X → vtx G v) →
  ∃ h, subgraph G X = Ok h ∧ eg_wf h ∧ (∀ x, ev h x ↔ x ∈ X) ∧
       (∀ x y, ea h x y ↔ x ∈ X ∧ y ∈ X ∧ adj G x y).
Proof.
  intros Hwf HX. unfold subgraph, collect_set. set (sel := list_to_set X : gset N).
  assert (∀ v, v ∈ hash_iter 0 sel ↔ v ∈ X) as Hsel.
  { intros v. unfold sel. by rewrite elem_of_hash_iter, elem_of_list_to_set. }
  assert (adds (fold_res (λ h v,
      let h := (eg_add_vertex h v).1 in
      Nv ← neighbours G v;
      fold_res (λ h u, r ← eg_add_edge h u v; Ok r.1)
        (hash_iter 1 ((list_to_set Nv : gset N) ∩ sel)) h) (hash_iter 0 sel))
    (λ x, ∃ v, v ∈ hash_iter 0 sel ∧ (x = v ∨ adj G v x ∧ x ∈ X))
    (λ x y, ∃ v, v ∈ hash_iter 0 sel ∧ ((adj G v x ∧ x ∈ X ∧ y = v) ∨ (x = v ∧ adj G v y ∧ y ∈ X)))) as H.
  { apply adds_fold. intros v Hv. rewrite Hsel in Hv.
    destruct (wf_neighbours _ Hwf v) as (l & Hn & _ & Hl & _); [by apply HX|].
    eapply adds_ext; [apply (adds_star v (hash_iter 1 ((list_to_set l : gset N) ∩ sel)))| | |].
    - intros h. cbv beta zeta. rewrite Hn. done.
    - intros x. cbv beta. rewrite elem_of_hash_iter. unfold sel. set_unfold. rewrite Hl. done.
    - intros x y. cbv beta. rewrite !elem_of_hash_iter. unfold sel. set_unfold. rewrite !Hl. naive_solver. }
  apply adds_new in H as (h & Hok & Hwf' & H1 & H2). exists h. split_and!; [done|done| |].
  - intros x. rewrite H1. setoid_rewrite Hsel. naive_solver.
  - intros x y. rewrite H2. setoid_rewrite Hsel. split.
    + intros (v & ? & [(? & ? & ->)|(-> & ? & ?)]); split_and!; auto using wf_adj_sym.
    + intros (? & ? & ?). exists x. naive_solver.
Qed.

Lemma eg_from_iter_spec es :
  ∃ h, eg_from_iter es = Ok h ∧ eg_wf h ∧
    (∀ x, ev h x ↔ ∃ e, e ∈ es ∧ (x = e.1 ∨ x = e.2)) ∧
    (∀ x y, ea h x y ↔ (x, y) ∈ es ∨ (y, x) ∈ es).
Proof.
  unfold eg_from_iter.
  destruct (eg_add_edge_fold_spec es eg_new eg_new_wf) as (h & -> & Hwf & H1 & H2).
  exists h. split_and!; [done|done| |].
  - intros x. rewrite H1. pose proof (eg_new_ev x). naive_solver.
  - intros x y. rewrite H2. pose proof (eg_new_ea x y). naive_solver.
Qed.

(** Counting versions of the bulk edits. *)
Lemma eg_num_vertices_add g u : eg_wf g →
  eg_num_vertices (eg_add_vertex g u).1 = eg_num_vertices g + (if eg_contains g u then 0 else 1).
Proof.
  intros [G HR]. destruct (eg_add_vertex_rep g G u HR) as [HR' _].
  rewrite (rep_num_vertices _ _ HR), (rep_num_vertices _ _ HR'), (rep_contains _ _ _ HR). cbn.
  case_bool_decide.
  - assert ({[u]} ∪ av G = av G) as -> by set_solver. lia.
  - rewrite size_union, size_singleton by set_solver. lia.
Qed.

Lemma eg_add_vertices_count g vs : eg_wf g →
  (eg_add_vertices g vs).2 + eg_num_vertices g = eg_num_vertices (eg_add_vertices g vs).1.
Proof.
  unfold eg_add_vertices.
  enough (∀ n, eg_wf g →
    (foldl (λ s v, let r := eg_add_vertex s.1 v in (r.1, if r.2 : bool then s.2 + 1 else s.2)) (g, n) vs).2
      + eg_num_vertices g =
    eg_num_vertices (foldl (λ s v, let r := eg_add_vertex s.1 v in (r.1, if r.2 : bool then s.2 + 1 else s.2)) (g, n) vs).1 + n)
    as HH.
  { intros Hg. specialize (HH 0 Hg). cbv zeta in HH |- *. lia. }
  revert g. induction vs as [|v vs IH]; intros g n Hg; cbn -[eg_add_vertex]; [lia|].
  destruct (eg_add_vertex_spec g v Hg) as (Hwf & Hb & _).
  specialize (IH (eg_add_vertex g v).1 (if (eg_add_vertex g v).2 then n + 1 else n) Hwf).
  rewrite (eg_num_vertices_add g v Hg) in IH. rewrite Hb in *.
  destruct (eg_contains g v); cbn -[eg_add_vertex] in *; lia.
Qed.

Lemma eg_add_edges_count g es : eg_wf g →
  ∃ g' k, eg_add_edges g es = Ok (g', k) ∧ k + eg_num_edges g = eg_num_edges g'.
Proof.
  unfold eg_add_edges. intros Hg.
  enough (∀ n, ∃ g' k,
    fold_res (λ s e, r ← eg_add_edge s.1 e.1 e.2; Ok (r.1, if r.2 : bool then s.2 + 1 else s.2)) es (g, n)
      = Ok (g', k) ∧ k + eg_num_edges g = eg_num_edges g' + n) as HH.
  { destruct (HH 0) as (g' & k & ? & ?). exists g', k. split; [done|lia]. }
  revert g Hg. induction es as [|e es IH]; intros g Hg n; cbn.
  - exists g, n. split; [done|lia].
  - destruct (eg_add_edge_spec g e.1 e.2 Hg) as (g1 & -> & Hwf & _ & _ & Hm). cbn.
    destruct (IH g1 Hwf (if negb (eg_adjacent g e.1 e.2) then n + 1 else n)) as (g' & k & -> & Hk).
    do 2 eexists; split; [done|]. destruct (eg_adjacent g e.1 e.2); cbn in *; lia.
Qed.

(** remove_loops / remove_isolates *)
Lemma eg_remove_edges_fold l g :
  eg_wf g →
  ∃ g', fold_res (λ h u, r ← eg_remove_edge h u u; Ok r.1) l g = Ok g' ∧ eg_wf g' ∧
    (∀ x, ev g' x ↔ ev g x) ∧ (∀ x y, ea g' x y ↔ ea g x y ∧ ¬ (x = y ∧ x ∈ l)).
Proof.
  revert g. induction l as [|u l IH]; intros g Hg; cbn.
  - exists g. split_and!; [done|done|done|]. set_solver.
  - destruct (eg_remove_edge_spec g u u Hg) as (g1 & -> & Hwf & H1 & H2). cbn.
    destruct (IH g1 Hwf) as (g2 & -> & Hwf2 & H3 & H4). exists g2. split_and!; [done|done| |].
    + intros x. by rewrite H3, H1.
    + intros x y. rewrite H4, H2. set_solver.
Qed.

Lemma eg_remove_loops_spec g :
  eg_wf g →
  ∃ g' k, eg_remove_loops g = Ok (g', k) ∧ eg_wf g' ∧
    (∀ x, ev g' x ↔ ev g x) ∧ (∀ x y, ea g' x y ↔ ea g x y ∧ x ≠ y) ∧
    (∃ X : gset N, (∀ x, x ∈ X ↔ ea g x x) ∧ k = size X).
Proof.
  intros Hg. unfold eg_remove_loops.
  set (c := filter (λ u, eg_adjacent g u u = true) (vertices (eg_graph g))).
  assert (∀ x, x ∈ c ↔ ea g x x) as Hc.
  { intros x. unfold c. rewrite elem_of_list_filter, eg_vertices by done.
    split; [naive_solver|]. intros Hx. split; [done|]. by eapply ea_ev. }
  destruct (eg_remove_edges_fold c g Hg) as (g' & -> & Hwf & H1 & H2). cbn.
  do 2 eexists; split; [done|]. split_and!; [done|done| |].
  - intros x y. rewrite H2, Hc. naive_solver.
  - exists (list_to_set c). split; [intros x; by rewrite elem_of_list_to_set|].
    rewrite size_list_to_set; [done|]. apply NoDup_filter, NoDup_hash_iter.
Qed.

Lemma eg_remove_vertices_fold l g :
  eg_wf g →
  ∃ g', fold_res (λ h u, r ← eg_remove_vertex h u; Ok r.1) l g = Ok g' ∧ eg_wf g' ∧
    (∀ x, ev g' x ↔ ev g x ∧ x ∉ l) ∧ (∀ x y, ea g' x y ↔ ea g x y ∧ x ∉ l ∧ y ∉ l).
Proof.
  revert g. induction l as [|u l IH]; intros g Hg; cbn.
  - exists g. split_and!; [done|done|set_solver|set_solver].
  - destruct (eg_remove_vertex_spec g u Hg) as (g1 & -> & Hwf & H1 & H2). cbn.
    destruct (IH g1 Hwf) as (g2 & -> & Hwf2 & H3 & H4). exists g2. split_and!; [done|done| |].
    + intros x. rewrite H3, H1. set_solver.
    + intros x y. rewrite H4, H2. set_solver.
Qed.

Lemma eg_degree_0 g u : eg_wf g → ev g u → eg_degree g u = 0 ↔ ∀ v, ¬ ea g u v.
Proof.
  intros Hg Hu. destruct (wf_neighbours _ (eg_graph_wf g Hg) u Hu) as (l & _ & _ & Hl & Hd).
  cbn in Hd. rewrite Hd. split.
  - intros H v Hv. apply Hl in Hv. destruct l; [set_solver|cbn in *; lia].
  - intros H. destruct l as [|v l].
    + cbn. specialize (H u). unfold ea in H. destruct (eg_adjacent g u u); naive_solver.
    + exfalso. apply (H v), Hl. set_solver.
Qed.

Lemma eg_remove_isolates_spec g :
  eg_wf g →
  ∃ g' k, eg_remove_isolates g = Ok (g', k) ∧ eg_wf g' ∧
    (∀ x, ev g' x ↔ ev g x ∧ ∃ y, ea g x y) ∧ (∀ x y, ea g' x y ↔ ea g x y) ∧
    (∃ X : gset N, (∀ x, x ∈ X ↔ ev g x ∧ ∀ y, ¬ ea g x y) ∧ k = size X).
Proof.
  intros Hg. unfold eg_remove_isolates.
  set (c := filter (λ u, eg_degree g u = 0) (vertices (eg_graph g))).
  assert (∀ x, x ∈ c ↔ ev g x ∧ ∀ y, ¬ ea g x y) as Hc.
  { intros x. unfold c. rewrite elem_of_list_filter, eg_vertices by done.
    split; intros [? ?]; (split; [done|]) || (split; [|done]);
    by apply (eg_degree_0 g x). }
  assert (∀ x, ev g x → (x ∉ c ↔ ∃ y, ea g x y)) as Hnc.
  { intros x Hx. destruct (eg_neighbours g x Hg Hx) as (l & _ & _ & Hl).
    rewrite Hc. destruct l as [|y l].
    - split; [intros H; destruct H; split; [done|]; intros y Hy%Hl; set_solver|].
      intros [y Hy%Hl]. set_solver.
    - assert (ea g x y) by (apply Hl; set_solver). naive_solver. }
  destruct (eg_remove_vertices_fold c g Hg) as (g' & -> & Hwf & H1 & H2). cbn.
  do 2 eexists; split; [done|]. split_and!; [done| | |].
  - intros x. rewrite H1. split; intros [? ?]; split; auto; by apply Hnc.
  - intros x y. rewrite H2. split; [naive_solver|]. intros Hxy.
    split_and!; [done| |]; apply Hnc; eauto using ea_ev, ea_sym.
  - exists (list_to_set c). split; [intros x; by rewrite elem_of_list_to_set|].
    rewrite size_list_to_set; [done|]. apply NoDup_filter, NoDup_hash_iter.
Qed.

(** ** Contraction *)
Lemma eg_contract_into_spec g c X :
  eg_wf g → ev g c → (∀ v, v ∈ X → ev g v) →
  ∃ g', eg_contract_into g c X = Ok g' ∧ eg_wf g' ∧
    (∀ x, ev g' x ↔ ev g x ∧ (x = c ∨ x ∉ X)) ∧
    (∀ x y, ea g' x y ↔ (x = c ∨ x ∉ X) ∧ (y = c ∨ y ∉ X) ∧
       (ea g x y ∨ (x = c ∧ y ≠ c ∧ ∃ v, v ∈ X ∧ v ≠ c ∧ ea g v y) ∨
        (y = c ∧ x ≠ c ∧ ∃ v, v ∈ X ∧ v ≠ c ∧ ea g v x))).
Proof.
  intros Hg Hc HX. unfold eg_contract_into, collect_set.
  set (ct := list_to_set X ∖ {[c]} : gset N).
  assert (∀ v, v ∈ hash_iter 2 ct ↔ v ∈ X ∧ v ≠ c) as Hct.
  { intros v. rewrite elem_of_hash_iter. unfold ct. set_solver. }
  destruct (neighbourhood_spec (eg_graph g) (hash_iter 2 ct) (eg_graph_wf g Hg)) as (S & -> & HS).
  { intros v Hv%Hct. apply HX, Hv. }
  cbn.
  set (l := hash_iter 3 (S ∖ {[c]})).
  assert (∀ y, y ∈ l ↔ y ≠ c ∧ y ∉ X ∧ ∃ v, v ∈ X ∧ v ≠ c ∧ ea g v y) as Hl.
  { intros y. unfold l. rewrite elem_of_hash_iter, elem_of_difference, elem_of_singleton, HS.
    setoid_rewrite Hct. unfold adj; cbn. fold (ea g).
    split; [|naive_solver]. intros [[H1 (v & [??] & ?)] ?]. split_and!; [done| |eauto].
    intros ?. apply H1. done. }
  assert (adds (fold_res (λ h u, r ← eg_add_edge h c u; Ok r.1) l)
     (λ x, ∃ u, u ∈ l ∧ (x = c ∨ x = u)) (λ x y, ∃ u, u ∈ l ∧ ((x = c ∧ y = u) ∨ (x = u ∧ y = c)))) as HA.
  { apply adds_fold. intros u _. apply adds_edge. }
  destruct (HA g Hg) as (g1 & -> & Hwf1 & HV1 & HE1). cbn.
  destruct (eg_remove_vertices_fold (hash_iter 4 ct) g1 Hwf1) as (g2 & -> & Hwf2 & HV2 & HE2).
  assert (∀ v, v ∈ hash_iter 4 ct ↔ v ∈ X ∧ v ≠ c) as Hct'.
  { intros v. rewrite elem_of_hash_iter. unfold ct. set_solver. }
  assert (∀ v, v ∉ hash_iter 4 ct ↔ v = c ∨ v ∉ X) as Hnct.
  { intros v. rewrite Hct'. destruct (decide (v = c)), (decide (v ∈ X)); naive_solver. }
  exists g2. split_and!; [done|done| |].
  - intros x. rewrite HV2, HV1, Hnct. setoid_rewrite Hl. split.
    + intros [[?|(u & (? & ? & v & ? & ? & Hvu) & [->| ->])] ?]; [done|done|].
      split; [|done]. eapply ea_ev; [done|]. by eapply ea_sym.
    + naive_solver.
  - intros x y. rewrite HE2, HE1, !Hnct. setoid_rewrite Hl. split.
    + intros [[?|(u & (? & ? & v & ? & ? & Hvu) & [[-> ->]|[-> ->]])] [? ?]]; naive_solver.
    + intros (Hx & Hy & [?|[(-> & ? & ?)|(-> & ? & ?)]]); [naive_solver| |].
      * split; [|done]. right. exists y. naive_solver.
      * split; [|done]. right. exists x. naive_solver.
Qed.

Lemma fold_union_panic (g : editgraph) (X : list N) (acc : gset N) v :
  eg_wf g → v ∈ X → ¬ ev g v →
  fold_res (λ acc v, N ← neighbours (eg_graph g) v; Ok (acc ∪ list_to_set N)) X acc = Panic.
Proof.
  intros Hg. revert acc. induction X as [|x X IH]; intros acc Hv Hn; [set_solver|].
  cbn [fold_res]. destruct (eg_adj g !! x) as [Nx|] eqn:E.
  - cbn -[union]. rewrite E. cbn -[union]. apply IH; [|done].
    apply elem_of_cons in Hv as [->|?]; [|done].
    destruct Hn. unfold ev, eg_contains. by rewrite E.
  - cbn. by rewrite E.
Qed.

Lemma eg_contract_into_panic g c X v :
  eg_wf g → v ∈ X → v ≠ c → ¬ ev g v → eg_contract_into g c X = Panic.
Proof.
  intros Hg Hv Hvc Hn. unfold eg_contract_into, neighbourhood.
  rewrite (fold_union_panic g _ _ v Hg); [done| |done].
  unfold collect_set. rewrite elem_of_hash_iter, elem_of_list_to_set, elem_of_hash_iter.
  set_solver.
Qed.

Lemma eg_contract_pair_spec g u v :
  eg_wf g → ev g u → ev g v → u ≠ v →
  ∃ g', eg_contract_pair g u v = Ok g' ∧ eg_wf g' ∧
    (∀ x, ev g' x ↔ ev g x ∧ x ≠ v) ∧
    (∀ x y, ea g' x y ↔ x ≠ v ∧ y ≠ v ∧
       (ea g x y ∨ (x = u ∧ y ≠ u ∧ ea g v y) ∨ (y = u ∧ x ≠ u ∧ ea g v x))).
Proof.
  intros Hg Hu Hv Huv. unfold eg_contract_pair.
  rewrite Hu, Hv. cbn [negb orb].
  destruct (eg_neighbours g v Hg Hv) as (l & -> & _ & Hl). cbn [mbind res_bind].
  set (k := hash_iter 2 (collect_set l ∖ {[u]} : gset N)).
  assert (∀ x, x ∈ k ↔ ea g v x ∧ x ≠ u) as Hk.
  { intros x. unfold k, collect_set. rewrite elem_of_hash_iter. set_unfold. by rewrite Hl. }
  assert (adds (fold_res (λ h x, r ← eg_add_edge h u x; Ok r.1) k)
     (λ x, ∃ w, w ∈ k ∧ (x = u ∨ x = w)) (λ x y, ∃ w, w ∈ k ∧ ((x = u ∧ y = w) ∨ (x = w ∧ y = u)))) as HA.
  { apply adds_fold. intros w _. apply adds_edge. }
  destruct (HA g Hg) as (g1 & -> & Hwf1 & HV1 & HE1). cbn [mbind res_bind].
  destruct (eg_remove_vertex_spec g1 v Hwf1) as (g2 & -> & Hwf2 & HV2 & HE2). cbn.
  exists g2. split_and!; [done|done| |].
  - intros x. rewrite HV2, HV1. setoid_rewrite Hk. split.
    + intros [[?|(w & (? & ?) & [->| ->])] ?]; [done|done|].
      split; [|done]. eapply ea_ev; [done|]. by eapply ea_sym.
    + naive_solver.
  - intros x y. rewrite HE2, HE1. setoid_rewrite Hk. split.
    + intros [[?|(w & (? & ?) & [[-> ->]|[-> ->]])] [? ?]]; naive_solver.
    + intros (Hx & Hy & [?|[(-> & ? & ?)|(-> & ? & ?)]]); [naive_solver| |].
      * split; [|done]. right. exists y. naive_solver.
      * split; [|done]. right. exists x. naive_solver.
Qed.

End with_iter.
