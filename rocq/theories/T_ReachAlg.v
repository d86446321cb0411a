(** Property theorem C83: the algorithms of LinearGraph on a ReachGraph.  [ReachGraph::neighbours]
    is not supported, so everything built on [right_bfs] panics; the rest agrees with the graph the
    ReachGraph was built from. *)
From Verif Require Import Base Spec M_Graph M_Iterators M_EditGraph M_Algorithms M_OrdGraph M_DegenGraph M_ReachGraph M_Linear M_Domset
  S_Graph S_Linear S_Reach P_EditGraph P_EditGraph2 P_OrdGraph P_OrdGraph2 P_Linear P_Domset P_Determin
  T_EditGraph T_OrdGraph T_ReachGraph T_Determin Examples.

(** [R] with the neighbour lists of [L]. *)
Definition with_neighbours_of (L R : lgraph) : lgraph := {|
  lg_graph := {| num_vertices := num_vertices R; num_edges := num_edges R; contains := contains R;
                 adjacent := adjacent R; degree := degree R; vertices := vertices R; neighbours := neighbours L |};
  index_of := index_of R; left_neighbours := left_neighbours R; right_degree := right_degree R |}.

Lemma with_neighbours_wf (L R : lgraph) : lgraph_wf L → vertices R = vertices L → num_vertices R = num_vertices L →
  (∀ u, contains R u = contains L u) → (∀ u v, adjacent R u v = adjacent L u v) → num_edges R = num_edges L →
  (∀ u, contains L u = true → degree R u = degree L u ∧ right_degree R u = right_degree L u ∧
     ∃ l, left_neighbours R u = Ok l ∧ lists_in_order (vertices L) (λ v, adjacent L u v = true ∧ before (vertices L) v u) l) →
  (∀ u, contains L u = true → ∃ i, index_of R u = Ok i) → (∀ u, contains L u = false → index_of R u = Panic) →
  (∀ u v i j, index_of R u = Ok i → index_of R v = Ok j → i < j ↔ before (vertices L) u v) →
  lgraph_wf (with_neighbours_of L R).
Proof.
  intros HL Hvs Hn Hc Ha Hm Hu Hi Hp Hlt.
  assert (∀ u v, adj (with_neighbours_of L R) u v ↔ adj L u v) as Hadj by (intros u v; unfold adj; cbn; by rewrite Ha).
  assert (∀ u, vtx (with_neighbours_of L R) u ↔ vtx L u) as Hv by (intros u; unfold vtx; cbn; by rewrite Hc).
  pose proof (lwf_graph L HL) as Hwf. split.
  - split.
    + intros u. rewrite Hv. cbn. rewrite Hvs. apply Hwf.
    + cbn. rewrite Hvs. apply Hwf.
    + cbn. rewrite Hvs, Hn. apply Hwf.
    + intros u v. rewrite Hadj, Hv. by apply Hwf.
    + intros u v. rewrite !Hadj. by apply Hwf.
    + intros u. rewrite Hv. intros Hx. destruct (wf_neighbours _ Hwf u Hx) as (l & H1 & H2 & H3 & H4). exists l.
      split_and!; [done|done| |].
      * intros v. by rewrite H3, Hadj.
      * cbn. rewrite Ha. destruct (Hu u Hx) as (-> & _). done.
    + destruct (wf_num_edges _ Hwf) as (E & HE & HEs). exists E. split; [|cbn; by rewrite Hm]. intros u v. by rewrite HE, Hadj.
  - intros u. rewrite Hadj. apply HL.
  - intros u. rewrite Hv. apply Hi.
  - intros u Hx. apply Hp. rewrite Hv in Hx. by apply not_true_is_false.
  - intros u v i j. change (vertices (with_neighbours_of L R)) with (vertices R). rewrite Hvs. apply Hlt.
  - intros u. rewrite Hv. intros Hx. destruct (Hu u Hx) as (_ & _ & l & H1 & H2 & H3). exists l. split; [done|].
    change (vertices (with_neighbours_of L R)) with (vertices R). rewrite Hvs. split; [|done]. intros x. rewrite H2, Hadj. done.
  - intros u. rewrite Hv. intros Hx. destruct (Hu u Hx) as (_ & Hr & _). destruct (lwf_right L HL u Hx) as (l & H1 & H2 & H3).
    exists l. split_and!; [done| |].
    + cbn. by rewrite Hr.
    + intros v. change (vertices (with_neighbours_of L R)) with (vertices R). rewrite Hvs, H3, Hadj. done.
Qed.

Lemma reach_with_neighbours_wf (D : nat) (L : lgraph) P (rg : reachgraph) : lgraph_wf L → reach_graph_of D L P rg →
  lgraph_wf (with_neighbours_of L (rg_lgraph D rg)).
Proof.
  intros HL (_ & Hvs & Hn & Hc & Ha & Hm & Hu & Hi & Hlt). apply with_neighbours_wf; try done.
  - intros u Hx. destruct (Hu u Hx) as (? & ? & ? & _). done.
  - intros u Hx. change (rg_index_of rg u = Panic). unfold rg_index_of. rewrite <- Hc in Hx.
    change (bool_decide (is_Some (rg_indices rg !! u)) = false) in Hx. apply bool_decide_eq_false in Hx.
    destruct (rg_indices rg !! u); [|done]. by destruct Hx.
Qed.

Section with_iter.
Context `{H1 : HashIter} (H2 : HashIter).

(** ** C83: what works on a ReachGraph, and gives the same results as on [L]. *)
Theorem C83_same_results_partial (D : nat) (L : lgraph) P (rg : reachgraph) : lgraph_wf L → reach_graph_of D L P rg →
  let R := rg_lgraph D rg in
  (∀ u, left_degree R u = left_degree L u) ∧ left_degrees R = left_degrees L ∧ max_left_degree R = max_left_degree L ∧
  count_max_cliques R = count_max_cliques L ∧ colour_greedy R = colour_greedy L ∧
  (∀ u, @right_bfs H1 R u 0 = @right_bfs H2 L u 0) ∧ @wreach_sets H1 R 0 = @wreach_sets H2 L 0 ∧
  (∀ u, @sreach_set H1 R u 1 = @sreach_set H2 L u 1) ∧ @sreach_sets H1 R 1 = @sreach_sets H2 L 1 ∧
  @sreach_sizes H1 R 1 = @sreach_sizes H2 L 1 ∧
  (∀ T, @domset_with_target H1 R 0 false T = @domset_with_target H2 L 0 false T).
Proof.
  intros HL HR R. pose proof (reach_with_neighbours_wf D L P rg HL HR) as HW. set (R' := with_neighbours_of L R) in *.
  pose proof HR as (_ & Hvs & _ & _ & Ha & _).
  assert (vertices R' = vertices L) as Hvs' by exact Hvs.
  assert (∀ u v, adj R' u v ↔ adj L u v) as Hadj by (intros u v; unfold adj; change (adjacent R' u v) with (adjacent R u v); by rewrite Ha).
  assert (∀ u, left_degree R u = left_degree L u) as Hld.
  { intros u. change (left_degree R' u = left_degree L u). by apply two_left_degree. }
  split_and!.
  - exact Hld.
  - unfold left_degrees. change (vertices R) with (vertices R'). rewrite Hvs'. apply fold_res_ext. intros u m _. by rewrite Hld.
  - unfold max_left_degree. change (vertices R) with (vertices R'). rewrite Hvs'. apply fold_res_ext. intros u m _. by rewrite Hld.
  - rewrite <- (two_count R' L HW HL Hvs' Hadj). unfold count_max_cliques. change (vertices R) with (vertices R').
    erewrite fold_res_ext; [reflexivity|]. intros v res Hv. cbn beta. change (left_neighbours R v) with (left_neighbours R' v).
    destruct (left_neighbours R' v); cbn [mbind res_bind]; [|done..]. by apply bk_ext.
  - change (colour_greedy R' = colour_greedy L). by apply two_greedy.
  - intros u. change (@right_bfs H1 R' u 0 = @right_bfs H2 L u 0). by apply two_right_bfs.
  - change (@wreach_sets H1 R' 0 = @wreach_sets H2 L 0). by apply two_wreach_sets.
  - intros u. change (@sreach_set H1 R' u 1 = @sreach_set H2 L u 1). by apply two_sreach_set.
  - change (@sreach_sets H1 R' 1 = @sreach_sets H2 L 1). by apply two_sreach_sets.
  - change (@sreach_sizes H1 R' 1 = @sreach_sizes H2 L 1). by apply two_sreach_sizes.
  - intros T. change (@domset_with_target H1 R' 0 false T = @domset_with_target H2 L 0 false T). by apply two_domset.
Qed.

End with_iter.

Section one_iter.
Context `{HI : HashIter}.
Lemma assert_bind_panic {A} b (f : () → res A) : (∀ x, f x = Panic) → (y ← assert_res b; f y) = Panic.
Proof. intros Hf. destruct b; cbn; [by rewrite Hf|done]. Qed.
Section no_neighbours.
Context (R : lgraph) (Hnb : ∀ u, neighbours R u = Panic) (Hidx : ∀ u, index_of R u ≠ Diverge).
Lemma nn_layer i u : rb_layer R i {[u]} {[u]} = Panic.
Proof.
  unfold rb_layer. assert (hash_iter 0 ({[u]} : gset N) = [u]) as ->; [|cbn [fold_res]; by rewrite Hnb].
  pose proof (hash_iter_perm 0 ({[u]} : gset N)) as Hp. rewrite elements_singleton in Hp. by apply Permutation_singleton_r in Hp.
Qed.
Lemma nn_right_bfs u r : right_bfs R u (S r) = Panic.
Proof.
  unfold right_bfs. generalize (N.of_nat (S r) + 1 <? u32_mod)%N. intros b. pose proof (Hidx u) as Hi. destruct (index_of R u) as [i| |]; [|done|done]. cbn [mbind res_bind].
  apply assert_bind_panic. intros _. cbn [rb_loop]. by rewrite nn_layer.
Qed.
Lemma nn_sreach u r : sreach_set R u (S (S r)) = Panic.
Proof.
  unfold sreach_set. replace (sub_checked (S (S r)) 1) with (Ok (S r)) by (unfold sub_checked; cbn; f_equal; lia).
  cbn [mbind res_bind]. by rewrite nn_right_bfs.
Qed.
End no_neighbours.
Lemma rg_index_total D rg u : index_of (rg_lgraph D rg) u ≠ Diverge.
Proof. cbn. unfold rg_index_of. by destruct (rg_indices rg !! u). Qed.
Lemma rg_right_bfs_panic D rg u r : right_bfs (rg_lgraph D rg) u (S r) = Panic.
Proof. apply nn_right_bfs; [done|apply rg_index_total]. Qed.
Lemma rg_sreach_panic D rg u r : sreach_set (rg_lgraph D rg) u (S (S r)) = Panic.
Proof. apply nn_sreach; [done|apply rg_index_total]. Qed.
Lemma rg_order_total D L P rg : lgraph_wf L → reach_graph_of D L P rg → ∃ o, ds_order (rg_lgraph D rg) = Ok o.
Proof.
  intros HL HR. destruct (ds_order_spec L HL) as (o & Ho & _). exists o. rewrite <- Ho.
  pose proof (reach_with_neighbours_wf D L P rg HL HR) as HW.
  change (ds_order (with_neighbours_of L (rg_lgraph D rg)) = ds_order L). apply two_order; [done|done| |].
  - by destruct HR as (_ & ? & _).
  - destruct HR as (_ & _ & _ & _ & Ha & _). intros x y. unfold adj.
    change (adjacent (with_neighbours_of L (rg_lgraph D rg)) x y) with (adjacent (rg_lgraph D rg) x y). by rewrite Ha.
Qed.

(** The claim fails for every larger radius on every non-empty graph. *)
Theorem C83_panics (D : nat) (L : lgraph) P (rg : reachgraph) : lgraph_wf L → reach_graph_of D L P rg →
  let R := rg_lgraph D rg in
  (∀ u r, right_bfs R u (S r) = Panic) ∧
  (∀ u r, sreach_set R u (S (S r)) = Panic) ∧
  (vertices L ≠ [] → ∀ r, wreach_sets R (S r) = Panic ∧ wreach_sizes R (S r) = Panic ∧
     sreach_sets R (S (S r)) = Panic ∧ sreach_sizes R (S (S r)) = Panic ∧
     ∀ T w, T ≠ [] → domset_with_target R (S r) w T = Panic).
Proof.
  intros HL HR. cbv zeta. destruct (rg_order_total D L P rg HL HR) as (order & Ho).
  destruct HR as (_ & Hvs & Hn & _).
  split_and!; [intros; apply rg_right_bfs_panic|intros; apply rg_sreach_panic|]. intros Hne r.
  assert (∃ v vs, vertices (rg_lgraph D rg) = v :: vs) as (v & vs & E).
  { rewrite Hvs. destruct (vertices L) as [|v vs]; [done|by exists v, vs]. }
  assert (wreach_sets (rg_lgraph D rg) (S r) = Panic) as Hw.
  { unfold wreach_sets. rewrite E. cbn [fold_res]. by rewrite rg_right_bfs_panic. }
  split_and!.
  - done.
  - unfold wreach_sizes. rewrite E. cbn [fold_res]. by rewrite rg_right_bfs_panic.
  - unfold sreach_sets. rewrite E. cbn [fold_res]. by rewrite rg_sreach_panic.
  - unfold sreach_sizes. rewrite E. cbn [fold_res]. by rewrite rg_sreach_panic.
  - intros T w HT. unfold domset_with_target. generalize (N.of_nat (2 * S r) * N.of_nat (2 * S r) <? u32_mod)%N. intros b.
    assert (g_is_empty (rg_lgraph D rg) = false) as ->.
    { unfold g_is_empty, g_len. rewrite Hn, (wf_num_vertices _ (lwf_graph _ HL)), <- Hvs, E. done. }
    rewrite bool_decide_eq_false_2; cycle 1.
    { destruct T as [|t T]; [done|]. intros He. assert (t ∈ (collect_set (t :: T) : gset N)) as Ht; [|rewrite He in Ht; by apply elem_of_empty in Ht].
      unfold collect_set. apply elem_of_list_to_set. left. }
    rewrite Ho, Hw. cbn [orb]. by apply assert_bind_panic.
Qed.

End one_iter.

(** ** Example: the cycle on five vertices with a pendant vertex as a ReachGraph of depth 2. *)
Local Existing Instance std_iter.
Lemma ok_inj {A} (a b : A) : Ok a = Ok b → a = b.
Proof. by intros [= ->]. Qed.
Example ex_C83_hyps : ∃ rg, og_to_wreach_graph 2 ex_c5_ord = Ok rg ∧ lgraph_wf (og_lgraph ex_c5_ord) ∧
  reach_graph_of 2 (og_lgraph ex_c5_ord)
    (λ u v d, before (vertices (og_lgraph ex_c5_ord)) v u ∧ least (wreach_walk (og_lgraph ex_c5_ord) u v) d) rg.
Proof.
  destruct ex_C43_hyps2 as (Hwf & Hs & _).
  destruct (C43_to_wreach_graph 2 ex_c5_ord) as (rg & Hrg & HR);
    [lia|vm_compute; reflexivity|exact Hwf| |exists rg; split; [exact Hrg|split; [exact Hwf|exact HR]]].
  intros k Hk. rewrite Hk in Hs. cbn [mbind res_bind] in Hs. rewrite (ok_inj _ _ Hs). vm_compute. reflexivity.
Qed.
(** The full claim fails there: [domset] works on the OrdGraph and panics on the ReachGraph. *)
Theorem C83_refuted : ∃ (g : ordgraph) rg, lgraph_wf (og_lgraph g) ∧ og_to_wreach_graph 2 g = Ok rg ∧
  (∃ x, domset (og_lgraph g) 1 false = Ok x) ∧ domset (rg_lgraph 2 rg) 1 false = Panic.
Proof.
  destruct ex_C83_hyps as (rg & Hrg & Hwf & HR). exists ex_c5_ord, rg. split; [exact Hwf|]. split; [exact Hrg|]. split.
  - assert (match domset (og_lgraph ex_c5_ord) 1 false with Ok _ => True | _ => False end) as E by (vm_compute; exact I).
    destruct (domset (og_lgraph ex_c5_ord) 1 false) as [x| |]; [by exists x|destruct E..].
  - unfold domset. destruct (C83_panics 2 _ _ rg Hwf HR) as (_ & _ & Hp). apply Hp.
    + vm_compute. done.
    + destruct HR as (_ & Hvs & _). rewrite Hvs. vm_compute. done.
Qed.
Example ex_C83 : (rg ← og_to_wreach_graph 2 ex_c5_ord;
   c ← colour_greedy (rg_lgraph 2 rg); n ← count_max_cliques (rg_lgraph 2 rg); Ok (map_to_list c, n)) =
  Ok ([(0, 0); (1, 2); (3, 2); (5, 1); (2, 0); (4, 1)]%N, 6).
Proof. vm_compute. done. Qed.

Print Assumptions C83_same_results_partial.
Print Assumptions C83_panics.
Print Assumptions C83_refuted.
