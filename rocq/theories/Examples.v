(** Concrete linear graphs used in the examples and refutations: the graph with the edges [es] in
    the given order, built through the modelled EditGraph and OrdGraph code.  No code is modelled
    here. *)
From Verif Require Import Base Spec M_Graph M_Iterators M_EditGraph M_OrdGraph S_Graph S_Linear S_Cliques
  P_EditGraph P_EditGraph2 P_OrdGraph P_OrdGraph2 T_EditGraph T_OrdGraph.
Local Existing Instance std_iter.

Definition ex_ops_of (es : list (N * N)) : list edit_op := (λ e, AddEdge e.1 e.2) <$> es.
Definition ex_edit (es : list (N * N)) : editgraph :=
  match eg_run eg_new (ex_ops_of es) with Ok (g, _) => g | _ => eg_new end.
Definition ex_ord (es : list (N * N)) (order : list N) : ordgraph :=
  match og_with_ordering (eg_graph (ex_edit es)) order with Ok g => g | _ => OrdGraph ∅ [] 0 end.
Definition ex_lin (es : list (N * N)) (order : list N) : lgraph := og_lgraph (ex_ord es order).
Definition ex_ok (es : list (N * N)) (order : list N) : bool :=
  bool_decide (NoDup order) &&
  forallb (λ e : N * N, bool_decide (e.1 ≠ e.2) && bool_decide (e.1 ∈ order) && bool_decide (e.2 ∈ order)) es.

Lemma ex_run_ae es : ∀ G, ae (a_run G (ex_ops_of es)).1 = list_to_set ((λ e, upair e.1 e.2) <$> es) ∪ ae G.
Proof.
  induction es as [|e es IH]; intros G; [cbn; set_solver|]. cbn -[a_add_edge].
  specialize (IH (a_add_edge G e.1 e.2)). unfold ex_ops_of in IH. destruct (a_run _ _) as [G2 bs]. cbn in *. rewrite IH. set_solver.
Qed.
Lemma upair_eq u v a b : upair u v = upair a b ↔ (u = a ∧ v = b) ∨ (u = b ∧ v = a).
Proof.
  unfold upair. destruct (N.leb_spec u v), (N.leb_spec a b); split; intros; destruct_and?; destruct_or?; destruct_and?; simplify_eq; auto; try (f_equal; lia); lia.
Qed.

Lemma ex_edit_spec es : graph_wf (eg_graph (ex_edit es)) ∧
  ∀ u v, adjacent (eg_graph (ex_edit es)) u v = true ↔ (u, v) ∈ es ∨ (v, u) ∈ es.
Proof.
  destruct (C01_editgraph_refines (ex_ops_of es)) as (h & Hh & HV & HE).
  unfold ex_edit. rewrite Hh. split; [apply eg_graph_wf, eg_reachable_wf; by eexists _, _|].
  intros u v. cbn. rewrite HE. unfold a_adj. rewrite ex_run_ae. cbn. rewrite union_empty_r_L, elem_of_list_to_set, elem_of_list_fmap.
  split.
  - intros ([a b] & [[-> ->]|[-> ->]]%upair_eq & Hin); auto.
  - intros [?|?]; [exists (u, v)|exists (v, u)]; (split; [|done]); cbn; apply upair_eq; auto.
Qed.

Lemma ex_lin_spec es order : ex_ok es order = true →
  og_with_ordering (eg_graph (ex_edit es)) order = Ok (ex_ord es order) ∧
  lgraph_wf (ex_lin es order) ∧ vertices (ex_lin es order) = order ∧
  (∀ u, contains (ex_lin es order) u = true ↔ u ∈ order) ∧
  ∀ u v, adjacent (ex_lin es order) u v = true ↔ (u, v) ∈ es ∨ (v, u) ∈ es.
Proof.
  intros Hok. unfold ex_ok in Hok. apply andb_true_iff in Hok as [Hnd%bool_decide_eq_true Hall].
  rewrite forallb_forall in Hall. destruct (ex_edit_spec es) as [Hwf Hadj].
  assert (∀ e, e ∈ es → e.1 ≠ e.2 ∧ e.1 ∈ order ∧ e.2 ∈ order) as Hes.
  { intros e He. apply elem_of_list_In, Hall in He. rewrite !andb_true_iff, !bool_decide_eq_true in He. tauto. }
  destruct (C34_with_ordering (eg_graph (ex_edit es)) order Hwf) as (g & Hg & Hlw & Hvs & _ & _ & Hc & Ha & _); [|done| |].
  - intros u Hu. apply Hadj in Hu as [Hu|Hu]; by apply Hes in Hu as [? _].
  - intros u v Huv. apply Hadj in Huv as [Hu|Hu]; by apply Hes in Hu as (? & ? & ?).
  - unfold ex_lin, ex_ord. rewrite Hg. split_and!; [done|done|done|apply Hc|]. intros u v.
    change (adjacent (og_lgraph g)) with (adjacent (og_graph g)). rewrite Ha. apply Hadj.
Qed.

Definition left_clique_b (L : lgraph) (v : N) : bool :=
  match left_neighbours L v with
  | Ok l => forallb (λ x, forallb (λ y, bool_decide (x = y) || adjacent L x y) l) l
  | _ => false
  end.
Lemma left_clique_b_spec L : lgraph_wf L → forallb (left_clique_b L) (vertices L) = true →
  ∀ v, contains L v = true → left_clique L v.
Proof.
  intros HL Hall v Hv x y Hx Hbx Hy Hby Hne. rewrite forallb_forall in Hall.
  pose proof Hv as Hv'. apply (wf_vertices _ (lwf_graph _ HL)), elem_of_list_In, Hall in Hv'. unfold left_clique_b in Hv'.
  destruct (lwf_left _ HL v Hv) as (l & Hl & Hin & _). rewrite Hl in Hv'. rewrite forallb_forall in Hv'.
  specialize (Hv' x ltac:(by apply elem_of_list_In, Hin)). rewrite forallb_forall in Hv'.
  specialize (Hv' y ltac:(by apply elem_of_list_In, Hin)). rewrite bool_decide_false in Hv' by done. done.
Qed.

Definition triangle_free_b (L : lgraph) : bool :=
  forallb (λ x, forallb (λ y, forallb (λ z, negb (adjacent L x y && adjacent L y z && adjacent L x z))
    (vertices L)) (vertices L)) (vertices L).
Lemma triangle_free_b_spec L : lgraph_wf L → triangle_free_b L = true →
  ∀ x y z, adj L x y → adj L y z → ¬ adj L x z.
Proof.
  intros HL Hb x y z Hxy Hyz Hxz. unfold triangle_free_b in Hb.
  assert (∀ a b, adj L a b → In a (vertices L)) as Hin.
  { intros a b Hab. apply elem_of_list_In, (wf_vertices _ (lwf_graph _ HL)). by eapply (wf_adj_vtx _ (lwf_graph _ HL)). }
  rewrite forallb_forall in Hb. specialize (Hb x (Hin _ _ Hxy)). rewrite forallb_forall in Hb. specialize (Hb y (Hin _ _ Hyz)).
  rewrite forallb_forall in Hb. apply (wf_adj_sym _ (lwf_graph _ HL)) in Hyz as Hzy. specialize (Hb z (Hin _ _ Hzy)).
  unfold adj in *. rewrite Hxy, Hyz, Hxz in Hb. done.
Qed.
