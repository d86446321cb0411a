(** Proofs about OrdGraph and DegenGraph built from graphs that may have loops. *)
From Verif Require Import Base Spec M_Graph M_Iterators M_EditGraph M_Algorithms M_OrdGraph M_DegenGraph S_Graph S_Multi S_Linear
  P_EditGraph P_EditGraph2 P_Graph P_Iterators P_Degeneracy P_OrdGraph P_OrdGraph2 P_DegenGraph P_DegenGraph2.

(** A loop is inserted on both sides. *)
Lemma og_insert_loop_spec ind nodes order Lf Rt u :
  og_rep ind nodes order Lf Rt → u ∈ order →
  ∃ nodes', og_insert_edge ind nodes (u, u) = Ok nodes' ∧
    og_rep ind nodes' order (λ a y, Lf a y ∨ (a = u ∧ y = u)) (λ a y, Rt a y ∨ (a = u ∧ y = u)).
Proof.
  intros H Hu. pose proof (or_pos _ _ _ _ _ H) as Hp.
  destruct (px_lookup _ _ _ Hp Hu) as [Hu1 Hu2].
  unfold og_insert_edge. rewrite Hu1. cbn [unwrap mbind res_bind]. rewrite Nat.ltb_irrefl.
  destruct (on_insert_right_spec _ _ _ _ _ (px ind u) u u H Hu2) as (n1 & -> & H1). cbn [mbind res_bind].
  destruct (on_insert_left_spec _ _ _ _ _ (px ind u) u u H1 Hu2) as (n2 & -> & H2).
  eexists; split; [done|exact H2].
Qed.

(** What [with_ordering] stores in general. *)
Definition og_loopy (G : graph) (order : list N) (g : ordgraph) : Prop :=
  og_rep (og_indices g) (og_nodes g) order
    (λ x y, adj G x y ∧ (y = x ∨ before order y x)) (λ x y, adj G x y ∧ (y = x ∨ before order x y)).

Lemma with_ordering_weak G order : weak_wf G → NoDup order →
  (∀ u v, adj G u v → u ∈ order) →
  ∃ g, og_with_ordering G order = Ok g ∧ og_loopy G order g ∧ og_m g = num_edges G.
Proof.
  intros Hwf Hnd Hcov. unfold og_with_ordering.
  pose proof (og_index_map_spec order Hnd) as Hp. set (ind := og_index_map order) in *. clearbody ind.
  rewrite og_init_nodes by done. cbn [mbind res_bind].
  destruct (edges_weak G Hwf) as (es & -> & Hes). cbn [mbind res_bind].
  destruct (fold_res_inv (og_insert_edge ind) (λ pre nodes, og_rep ind nodes order
      (λ a y, ((a, y) ∈ pre ∨ (y, a) ∈ pre) ∧ (y = a ∨ px ind y < px ind a))
      (λ a y, ((a, y) ∈ pre ∨ (y, a) ∈ pre) ∧ (y = a ∨ px ind a < px ind y))) es (on_new <$> order)) as (nodes & -> & Hn).
  - eapply og_rep_ext; [by apply og_rep_init| |]; set_solver.
  - intros l1 [u v] l2 nodes Heq Hn.
    assert (adj G u v) as Huv by (apply (Hes u v); rewrite Heq; set_solver).
    assert (u ∈ order) as Hu by (by eapply Hcov).
    assert (v ∈ order) as Hv by (by eapply Hcov, (ww_adj_sym _ Hwf)).
    destruct (decide (u = v)) as [<-|Hne].
    + destruct (og_insert_loop_spec ind nodes order _ _ u Hn Hu) as (nodes' & Hok & Hn').
      exists nodes'. split; [done|]. eapply og_rep_ext; [exact Hn'| |]; cbv beta; intros a y _;
        rewrite !elem_of_app, !elem_of_list_singleton; split.
      * intros [[[?|[= -> ->]]|[?|[= -> ->]]] ?]; auto 10.
      * intros [[[?|?] ?]|[-> ->]]; auto 10.
      * intros [[[?|[= -> ->]]|[?|[= -> ->]]] ?]; auto 10.
      * intros [[[?|?] ?]|[-> ->]]; auto 10.
    + destruct (og_insert_edge_spec ind nodes order _ _ u v Hn Hu Hv Hne) as (nodes' & Hok & Hn').
      exists nodes'. split; [done|]. eapply og_rep_ext; [exact Hn'| |]; cbv beta; intros a y _;
        rewrite !elem_of_app, !elem_of_list_singleton; split.
      * intros [[[?|[= -> ->]]|[?|[= -> ->]]] [?|?]]; subst; auto 10; done.
      * intros [[[?|?] ?]|[[[-> ->]|[-> ->]] ?]]; auto 10.
      * intros [[[?|[= -> ->]]|[?|[= -> ->]]] [?|?]]; subst; auto 10; done.
      * intros [[[?|?] ?]|[[[-> ->]|[-> ->]] ?]]; auto 10.
  - cbn [mbind res_bind]. eexists; split; [done|]. split; [|done]. unfold og_loopy. cbn.
    assert (∀ a y, (a, y) ∈ es ∨ (y, a) ∈ es ↔ adj G a y) as Hadj.
    { intros a y. rewrite !Hes. split.
      - intros [[_ ?]|[_ ?]]; [done|by apply (ww_adj_sym _ Hwf)].
      - intros Hay. destruct (N.le_gt_cases a y); [left; done|right; split; [lia|by apply (ww_adj_sym _ Hwf)]]. }
    eapply og_rep_ext; [exact Hn| |]; cbv beta; intros a y Ha; rewrite Hadj, (px_before ind order _ _ Hp).
    + split; [naive_solver|]. intros [Hay [?|?]]; [by auto|]. split; [done|]. right.
      split_and!; [by eapply Hcov, (ww_adj_sym _ Hwf)|done|done].
    + split; [naive_solver|]. intros [Hay [?|?]]; [by auto|]. split; [done|]. right.
      split_and!; [done|by eapply Hcov, (ww_adj_sym _ Hwf)|done].
Qed.
Lemma with_ordering_loops G order : graph_wf G → NoDup order →
  (∀ u v, adj G u v → u ∈ order) →
  ∃ g, og_with_ordering G order = Ok g ∧ og_loopy G order g ∧ og_m g = num_edges G.
Proof. intros Hwf. by apply with_ordering_weak, graph_wf_weak. Qed.

Section with_iter.
Context `{HI : HashIter}.
Context (G : graph) (order : list N) (g : ordgraph) (Hwf : graph_wf G) (Hex : og_loopy G order g)
  (Hcov : ∀ u v, adj G u v → u ∈ order).
Local Notation ind := (og_indices g).

Lemma ol_pos : pos_map ind order.
Proof. apply Hex. Qed.
Lemma ol_node u : u ∈ order →
  ∃ n, og_indices g !! u = Some (px ind u) ∧ og_nodes g !! px ind u = Some n ∧ og_node g u = Some n ∧
  (∀ y, y ∈ on_left n ↔ adj G u y ∧ (y = u ∨ before order y u)) ∧
  (∀ y, y ∈ on_right n ↔ adj G u y ∧ (y = u ∨ before order u y)).
Proof.
  intros Hu. destruct (px_lookup _ _ _ ol_pos Hu) as [H1 H2].
  destruct (og_rep_lookup _ _ _ _ _ _ _ Hex H2) as (n & Hn & Hv & HL & HR).
  exists n. unfold og_node. rewrite H1. cbn. auto.
Qed.
Lemma ol_lists (P : N → Prop) t (X : gset N) : (∀ y, y ∈ X ↔ P y) → (∀ y, P y → y ∈ order) →
  ∃ l, sort_by_index ind (hash_iter t X) = Ok l ∧ lists_in_order order P l ∧ length l = size X.
Proof.
  intros HX HP. destruct (sort_by_index_spec ind order (hash_iter t X) ol_pos) as (l & Hl & Hperm & Hs).
  - apply NoDup_hash_iter.
  - intros x. rewrite elem_of_hash_iter, HX. apply HP.
  - exists l. split_and!; [done| |].
    + split; [|done]. intros x. by rewrite Hperm, elem_of_hash_iter, HX.
    + transitivity (length (elements X)); [|done]. apply Permutation_length. rewrite Hperm.
      apply NoDup_Permutation; [apply NoDup_hash_iter|apply NoDup_elements|].
      intros x. by rewrite elem_of_hash_iter, elem_of_elements.
Qed.
Lemma ol_spec u : u ∈ order → ∃ l r n,
  og_left_neighbours g u = Ok l ∧ og_right_neighbours g u = Ok r ∧ og_node g u = Some n ∧
  neighbours (og_graph g) u = Ok (on_neighbours n) ∧
  lists_in_order order (λ v, adj G u v ∧ (v = u ∨ before order v u)) l ∧
  lists_in_order order (λ v, adj G u v ∧ (v = u ∨ before order u v)) r ∧
  length l = size (on_left n) ∧ length r = size (on_right n) ∧
  (∀ y, y ∈ on_left n ↔ adj G u y ∧ (y = u ∨ before order y u)) ∧
  (∀ y, y ∈ on_right n ↔ adj G u y ∧ (y = u ∨ before order u y)).
Proof.
  intros Hu. destruct (ol_node u Hu) as (n & E1 & E2 & E3 & HL & HR).
  assert (∀ y, adj G u y → y ∈ order) as Hc by (intros y Hy; by eapply Hcov, (wf_adj_sym _ Hwf)).
  destruct (ol_lists _ 3 (on_left n) HL) as (l & Hl & Hl1 & Hl2); [naive_solver|].
  destruct (ol_lists _ 2 (on_right n) HR) as (r & Hr & Hr1 & Hr2); [naive_solver|].
  exists l, r, n. unfold og_left_neighbours, og_right_neighbours. cbn. rewrite E1. cbn [unwrap mbind res_bind].
  rewrite E2. cbn [unwrap mbind res_bind]. rewrite Hl, Hr. split_and!; try done.
Qed.
Lemma ol_adj u v : adjacent (og_graph g) u v = adjacent G u v.
Proof.
  apply eq_true_iff_eq. cbn. destruct (decide (u ∈ order)) as [Hu|Hu].
  - destruct (ol_node u Hu) as (n & _ & _ & -> & HL & HR).
    rewrite orb_true_iff, !bool_decide_eq_true, HL, HR. split; [tauto|]. intros Huv.
    assert (v ∈ order) as Hv by (by eapply Hcov, (wf_adj_sym _ Hwf)).
    rewrite !(px_before ind order) by apply ol_pos.
    destruct (Nat.lt_total (px ind u) (px ind v)) as [?|[?|?]]; [auto 10| |auto 10].
    assert (v = u) as -> by (symmetry; by eapply px_inj; [apply ol_pos|..]). auto.
  - unfold og_node. destruct (ind !! u) eqn:E.
    + destruct Hu. apply (pos_map_elem _ _ _ ol_pos). eauto.
    + cbn. split; [done|]. intros Huv. destruct Hu. by eapply Hcov.
Qed.
End with_iter.
