(** Property theorems C37-C39: DegenGraph.  Each group is followed by a concrete case meeting
    the hypotheses.  [u32_mod] is 2^32: offsets into the packed array are stored as u32. *)
From Verif Require Import Base Spec M_Graph M_Iterators M_EditGraph M_Algorithms M_OrdGraph M_DegenGraph S_Graph S_Linear
  P_EditGraph P_EditGraph2 P_Graph P_Iterators P_Degeneracy P_OrdGraph P_OrdGraph2 P_Packed P_DegenGraph P_DegenGraph2
  P_Normalize T_EditGraph T_Algorithms T_OrdGraph.

Section with_iter.
Context `{HI : HashIter}.

(** What it means for [g] to describe [G] in the given order. *)
Definition degen_of (G : graph) (order : list N) (g : degengraph) : Prop :=
  lgraph_wf (dg_lgraph g) ∧
  drains (do_next g) (do_new g) order ∧ vertices (dg_graph g) = order ∧
  (∃ rows, drains (di_next g) (di_new g) rows ∧ rows.*1 = order ∧
     ∀ u l, (u, l) ∈ rows → lists_in_order order (λ v, adjacent G u v = true ∧ before order v u) l) ∧
  num_vertices (dg_graph g) = length order ∧ num_edges (dg_graph g) = num_edges G ∧
  dg_first g = head order ∧
  (∀ u, contains (dg_graph g) u = true ↔ u ∈ order) ∧
  (∀ u v, adjacent (dg_graph g) u v = adjacent G u v) ∧
  (∀ u v, dg_adjacent_ordered g u v = true ↔ adjacent G u v = true ∧ before order u v) ∧
  (∀ u, u ∈ order → contains G u = true → degree (dg_graph g) u = degree G u) ∧
  (∀ u, u ∈ order → ∃ l R, left_neighbours (dg_lgraph g) u = Ok l ∧ dg_right_neighbours g u = Ok R ∧
     lists_in_order order (λ v, adjacent G u v = true ∧ before order v u) l ∧
     (∀ v, v ∈ R ↔ adjacent G u v = true ∧ before order u v) ∧
     dg_left_degree g u = Ok (length l) ∧ right_degree (dg_lgraph g) u = size R) ∧
  (∀ u, u ∈ order → ∃ i, index_of (dg_lgraph g) u = Ok i) ∧
  (∀ u v i j, index_of (dg_lgraph g) u = Ok i → index_of (dg_lgraph g) v = Ok j → i < j ↔ before order u v).

Lemma dg_exact_degen_of G order g : graph_wf G → loopless G → dg_exact G order g → degen_of G order g.
Proof.
  intros Hwf Hl (rows & last & <- & Hok & Hrep & Hadj).
  pose proof (dg_lgraph_wf rows last g Hok Hrep) as Hlw. pose proof (ro_weak _ Hok) as Hokw.
  assert (∀ u v, adjacent (dg_graph g) u v = adjacent G u v) as Ha.
  { intros u v. apply eq_true_iff_eq. etrans; [by eapply (dg_adj rows last g)|]. apply Hadj. }
  assert (∀ u, adjacent G u u = false) as Hl'.
  { intros u. apply not_true_is_false. apply Hl. }
  unfold degen_of. split_and!.
  - done.
  - by eapply dg_order_drains.
  - by eapply dg_verts.
  - exists rows. split_and!; [by eapply dg_iter_drains|done|]. intros u ns Hr.
    destruct (row_left _ Hok _ _ Hr) as [H1 H2]. split; [|done]. intros x. rewrite H1, Hadj. done.
  - rewrite fmap_length. by eapply dg_ind_size.
  - destruct (wf_num_edges _ Hwf) as (E & HE & ->). destruct (wf_num_edges _ (lwf_graph _ Hlw)) as (E' & HE' & Hm).
    change (num_edges (dg_lgraph g)) with (num_edges (dg_graph g)) in Hm. rewrite Hm. f_equal. apply set_eq. intros [u v].
    rewrite HE, HE'. unfold adj. change (adjacent (dg_lgraph g)) with (adjacent (dg_graph g)). by rewrite Ha.
  - by eapply dg_first_spec.
  - by apply (dg_vtx rows last g).
  - done.
  - intros u v. etrans; [by eapply dg_adjacent_ordered_spec|]. by rewrite Hadj.
  - intros u Hu HGu. destruct (wf_neighbours _ Hwf u HGu) as (l0 & _ & Hn0 & H0 & ->).
    destruct (wf_neighbours _ (lwf_graph _ Hlw) u) as (l1 & _ & Hn1 & H1 & Hd1); [by apply (dg_vtx rows last g)|].
    change (degree (dg_lgraph g) u) with (degree (dg_graph g) u) in Hd1. rewrite Hd1.
    change (adjacent (dg_lgraph g)) with (adjacent (dg_graph g)). rewrite Ha. f_equal.
    apply Permutation_length, NoDup_Permutation; [done|done|]. intros x. rewrite H0, H1. unfold adj.
    change (adjacent (dg_lgraph g)) with (adjacent (dg_graph g)). by rewrite Ha.
  - intros u Hu. destruct (dg_right_spec rows last g Hok Hrep u Hu) as (R & HR & HRx).
    apply rows_row in Hu as (ns & Hr). destruct (dg_left_slice_spec rows last g Hok Hrep u ns Hr) as [H1 H2].
    destruct (row_left _ Hok _ _ Hr) as [H3 H4].
    exists ns, R. split_and!; [done| | | |done|].
    + unfold dg_right_neighbours. by rewrite HR.
    + split; [|done]. intros x. by rewrite H3, Hadj.
    + intros v. by rewrite HRx, Hadj.
    + cbn. unfold dg_right_degree. by rewrite HR.
  - intros u Hu. apply (lwf_index _ Hlw). by apply (dg_vtx rows last g).
  - intros u v i j Hi Hj. rewrite (lwf_index_lt _ Hlw u v i j Hi Hj).
    change (vertices (dg_lgraph g)) with (vertices (dg_graph g)). by erewrite dg_verts.
Qed.

(** ** C37 *)
Theorem C37_with_ordering (G : graph) (order : list N) : graph_wf G → loopless G → NoDup order →
  (∀ u, u ∈ order ↔ contains G u = true) →
  (N.of_nat (3 * length order + num_edges G) <= u32_mod)%N →
  ∃ g, dg_with_ordering G order = Ok g ∧ degen_of G order g.
Proof.
  intros Hwf Hl Hnd Ho Hsz. destruct (dg_with_ordering_spec G order Hwf Hl Hnd) as (g & Hg & Hex).
  - intros u v Huv. apply Ho. by eapply (wf_adj_vtx _ Hwf).
  - intros u Hu. by apply Ho.
  - done.
  - exists g. split; [done|]. by apply dg_exact_degen_of.
Qed.

Theorem C37_from_graph (G : graph) : graph_wf G → loopless G →
  (N.of_nat (3 * num_vertices G + num_edges G) <= u32_mod)%N →
  ∃ lo up order core g, degeneracy G = Ok (lo, up, order, core) ∧ dg_from_graph G = Ok g ∧ degen_of G order g.
Proof.
  intros Hwf Hl Hsz. destruct (C23_degeneracy_order G Hwf Hl) as (lo & up & order & core & Hd & Hnd & Ho & _).
  assert (length order = num_vertices G) as Hlen.
  { rewrite (wf_num_vertices _ Hwf). apply Permutation_length, NoDup_Permutation; [done|apply Hwf|].
    intros x. rewrite Ho. symmetry. apply (wf_vertices _ Hwf). }
  destruct (C37_with_ordering G order Hwf Hl Hnd Ho) as (g & Hg & Hdg).
  { by rewrite Hlen. }
  exists lo, up, order, core, g. split_and!; [done| |done]. unfold dg_from_graph. by rewrite Hd.
Qed.

(** ** C38: [normalize] renames every vertex to its position, on every non-empty graph.
    The full claim includes the empty graph; refuted below. *)
Theorem C38_normalize_partial (G : graph) (order : list N) (g : degengraph) :
  graph_wf G → loopless G → NoDup order → (∀ u, u ∈ order ↔ contains G u = true) →
  (N.of_nat (3 * length order + num_edges G) <= u32_mod)%N →
  order ≠ [] → dg_with_ordering G order = Ok g →
  ∃ n2o g' order', dg_normalize g = Ok (n2o, g') ∧
    order' = N.of_nat <$> seq 0 (length order) ∧
    (∀ w v, n2o !! w = Some v ↔ order !! N.to_nat w = Some v) ∧
    lgraph_wf (dg_lgraph g') ∧
    vertices (dg_graph g') = order' ∧ drains (do_next g') (do_new g') order' ∧
    num_vertices (dg_graph g') = length order ∧ num_edges (dg_graph g') = num_edges G ∧
    (∀ i j u v, order !! i = Some u → order !! j = Some v →
       adjacent (dg_graph g') (N.of_nat i) (N.of_nat j) = adjacent G u v ∧
       dg_adjacent_ordered g' (N.of_nat i) (N.of_nat j) = dg_adjacent_ordered g u v) ∧
    (∀ i u, order !! i = Some u → ∃ l R, left_neighbours (dg_lgraph g') (N.of_nat i) = Ok l ∧
       dg_right_neighbours g' (N.of_nat i) = Ok R ∧
       lists_in_order order' (λ w, ∃ j v, w = N.of_nat j ∧ order !! j = Some v ∧ adjacent G u v = true ∧ j < i) l ∧
       (∀ w, w ∈ R ↔ ∃ j v, w = N.of_nat j ∧ order !! j = Some v ∧ adjacent G u v = true ∧ i < j) ∧
       dg_left_degree g' (N.of_nat i) = dg_left_degree g u ∧
       right_degree (dg_lgraph g') (N.of_nat i) = right_degree (dg_lgraph g) u ∧
       index_of (dg_lgraph g') (N.of_nat i) = index_of (dg_lgraph g) u) ∧
    (∃ rows, drains (di_next g') (di_new g') rows ∧ rows.*1 = order' ∧
       ∀ u l, (u, l) ∈ rows → left_neighbours (dg_lgraph g') u = Ok l).
Proof.
  intros Hwf Hl Hnd Ho Hsz Hne Hg. destruct (dg_with_ordering_spec G order Hwf Hl Hnd) as (g0 & Hg0 & Hex).
  { intros u v Huv. apply Ho. by eapply (wf_adj_vtx _ Hwf). }
  { intros u Hu. by apply Ho. }
  { done. }
  rewrite Hg in Hg0. injection Hg0 as <-. destruct Hex as (rows & last & <- & Hok & Hrep & Hadj).
  rewrite fmap_length in *.
  assert (N.of_nat (length rows) <= u32_mod)%N as Hsz' by lia.
  set (ind := og_index_map rows.*1). assert (pos_map ind rows.*1) as Hp by (by apply og_index_map_spec). clearbody ind.
  destruct (dg_normalize_spec rows last g ind Hok Hrep Hp) as (n2o & g' & Hn & Hrep' & Hn2o).
  { lia. }
  { intros ->. done. }
  assert (∀ x y, x ∈ rows.*1 → y ∈ rows.*1 → nm ind x = nm ind y → x = y) as Hinj.
  { intros x y Hx Hy Heq. unfold nm in Heq. apply Nat2N.inj in Heq. by eapply px_inj. }
  pose proof (rename_ok rows (nm ind) Hok Hinj) as Hok'.
  pose proof (dg_lgraph_wf _ last g' Hok' Hrep') as Hlw'. pose proof (ro_weak _ Hok) as Hokw. pose proof (ro_weak _ Hok') as Hokw'.
  assert ((rename_row (nm ind) <$> rows).*1 = N.of_nat <$> seq 0 (length rows)) as Hord.
  { rewrite rename_order. by apply nm_order. }
  set (order' := N.of_nat <$> seq 0 (length rows)) in *.
  assert (∀ i u, rows.*1 !! i = Some u → nm ind u = N.of_nat i) as Hnm by (intros i u; by apply nm_lookup).
  assert (∀ i u, rows.*1 !! i = Some u → u ∈ rows.*1) as Hel by (intros i u; apply elem_of_list_lookup_2).
  assert (∀ i j u v, rows.*1 !! i = Some u → rows.*1 !! j = Some v → before rows.*1 u v ↔ i < j) as Hbef.
  { intros i j u v Hi Hj. split; [|intros; by exists i, j]. intros (i' & j' & Hi' & Hj' & Hij). unfold pos in *.
    pose proof (NoDup_lookup _ _ _ _ Hnd Hi Hi'). pose proof (NoDup_lookup _ _ _ _ Hnd Hj Hj'). lia. }
  exists n2o, g', order'. split_and!; [done|done| |done| | | | | | |].
  - intros w v. rewrite Hn2o. split; [intros (j & Hj & ->); by rewrite Nat2N.id|]. intros Hj. exists (N.to_nat w). by rewrite N2Nat.id.
  - erewrite dg_verts; done.
  - rewrite <- Hord. by eapply dg_order_drains.
  - change (num_vertices (dg_graph g')) with (size (dg_indices g')). erewrite dg_ind_size by done. by rewrite fmap_length.
  - change (num_edges (dg_graph g')) with (dg_m g'). rewrite (dr_m _ _ _ Hrep').
    assert (sum_list_with (λ r, length r.2) (rename_row (nm ind) <$> rows) = sum_list_with (λ r, length r.2) rows) as ->.
    { clear. induction rows as [|r l IH]; [done|]. cbn. cbn in IH. by rewrite fmap_length, IH. }
    destruct (rows_edge_set rows Hok) as (E & HE & <-). destruct (wf_num_edges _ Hwf) as (E' & HE' & ->). f_equal.
    apply set_eq. intros [u v]. by rewrite HE, HE', Hadj.
  - intros i j u v Hi Hj. rewrite <- (Hnm i u Hi), <- (Hnm j v Hj). split; apply eq_true_iff_eq.
    + etrans; [by eapply (dg_adj _ last g')|]. rewrite rename_adj by eauto. apply Hadj.
    + rewrite (dg_adjacent_ordered_spec _ last g' Hok' Hrep'), (dg_adjacent_ordered_spec _ last g Hok Hrep).
      rewrite rename_adj by eauto. rewrite Hord, (Hbef i j u v Hi Hj). split; intros [H1 H2]; (split; [done|]).
      * destruct H2 as (a & b & Ha & Hb & Hab). unfold pos, order' in *. rewrite list_lookup_fmap in Ha, Hb.
        destruct (seq 0 (length rows) !! a) as [a'|] eqn:Ea; [|done]. destruct (seq 0 (length rows) !! b) as [b'|] eqn:Eb; [|done].
        apply lookup_seq in Ea as [-> _], Eb as [-> _]. cbn in Ha, Hb. rewrite (Hnm i u Hi) in Ha. rewrite (Hnm j v Hj) in Hb.
        injection Ha as Ha. injection Hb as Hb. lia.
      * rewrite <- Hord, rename_order. apply rename_before. by apply (Hbef i j).
  - intros i u Hi. rewrite <- (Hnm i u Hi).
    assert (nm ind u ∈ (rename_row (nm ind) <$> rows).*1) as Hin.
    { rewrite rename_order. apply elem_of_list_fmap_1. eauto. }
    destruct (dg_right_spec _ last g' Hok' Hrep' _ Hin) as (R & HR & HRx).
    destruct (dg_right_spec _ last g Hok Hrep u (Hel _ _ Hi)) as (R0 & HR0 & HRx0).
    destruct (proj1 (rows_row _ _) (Hel _ _ Hi)) as (ns & Hr).
    assert ((nm ind u, nm ind <$> ns) ∈ rename_row (nm ind) <$> rows) as Hr' by (apply elem_of_list_fmap; by exists (u, ns)).
    destruct (dg_left_slice_spec _ last g' Hok' Hrep' _ _ Hr') as [H1 H2].
    destruct (dg_left_slice_spec _ last g Hok Hrep _ _ Hr) as [H1' H2'].
    destruct (row_left _ Hok' _ _ Hr') as [H3 H4]. destruct (row_left _ Hok _ _ Hr) as [H3' _].
    assert (∀ w, w ∈ R ↔ ∃ j v, w = N.of_nat j ∧ rows.*1 !! j = Some v ∧ adjacent G u v = true ∧ i < j) as HRfin.
    { intros w. assert (w ∈ R ↔ row_lt (rename_row (nm ind) <$> rows) (nm ind u) w) as -> by (by apply (dr_right _ _ _ Hrep')). split.
      - intros Hlt. pose proof (rename_lt_inv _ _ _ _ Hlt) as (a & b & Ha & -> & Hab).
        assert (a ∈ rows.*1 ∧ b ∈ rows.*1) as [Hae Hbe] by (apply row_lt_before in Hab; [|done]; by apply before_cons_inv in Hab).
        apply Hinj in Ha; [|by eapply Hel|done]. subst a. apply elem_of_list_lookup in Hbe as [j Hj].
        exists j, b. rewrite (Hnm j b Hj). split_and!; [done|done| |].
        + apply Hadj, row_adj_lt. by left.
        + apply (Hbef i j u b Hi Hj). by apply row_lt_before.
      - intros (j & v & -> & Hj & Huv & Hij). rewrite <- (Hnm j v Hj). apply rename_lt; [done|done|eauto|eauto|].
        apply row_lt_adj; [done|]. split; [by apply row_adj_sym, Hadj|]. by apply (Hbef i j). }
    exists (nm ind <$> ns), R. split_and!; [done| | |exact HRfin| | |].
    + unfold dg_right_neighbours. by rewrite HR.
    + split; [|by rewrite <- Hord]. intros w. rewrite elem_of_list_fmap. split.
      * intros (v & -> & Hv). apply H3' in Hv as [Ha Hb]. destruct (before_cons_inv _ _ _ Hb) as [Hve _].
        apply elem_of_list_lookup in Hve as [j Hj]. exists j, v. rewrite (Hnm j v Hj). split_and!; [done|done|by apply Hadj|].
        by apply (Hbef j i v u).
      * intros (j & v & -> & Hj & Huv & Hij). exists v. split; [by rewrite (Hnm j v Hj)|]. apply H3'. split; [by apply Hadj|].
        by apply (Hbef j i).
    + by rewrite H2, H2', fmap_length.
    + cbn. unfold dg_right_degree. rewrite HR, HR0.
      assert (R = set_map (nm ind) R0) as ->.
      { apply set_eq. intros w. rewrite HRfin, elem_of_map. split.
        - intros (j & v & -> & Hj & Huv & Hij). exists v. split; [by rewrite (Hnm j v Hj)|]. apply HRx0. split; [by apply Hadj|]. by apply (Hbef i j).
        - intros (v & -> & Hv). apply HRx0 in Hv as [Ha Hb]. destruct (before_cons_inv _ _ _ Hb) as [_ Hve].
          apply elem_of_list_lookup in Hve as [j Hj]. exists j, v. rewrite (Hnm j v Hj). split_and!; [done|done|by apply Hadj|]. by apply (Hbef i j u v). }
      unfold set_map. rewrite size_list_to_set.
      * by rewrite fmap_length.
      * apply NoDup_fmap_2_strong; [|apply NoDup_elements]. intros x y. rewrite !elem_of_elements, !HRx0.
        intros [_ [_ Hx]%before_cons_inv] [_ [_ Hy]%before_cons_inv]. by apply Hinj.
    + cbn. unfold dg_index_of.
      assert (dg_indices g !! u = Some (roff rows i)) as -> by (apply (dr_ind _ _ _ Hrep); by exists i).
      assert (dg_indices g' !! nm ind u = Some (roff rows i)) as ->; [|done].
      apply (dr_ind _ _ _ Hrep'). exists i. rewrite rename_order, list_lookup_fmap. split; [by rewrite Hi|].
      pose proof (mixed_off rows ind Hsz' (length rows) i) as Hmo. unfold mixed in Hmo. rewrite take_ge, drop_ge, app_nil_r in Hmo by lia. done.
  - exists (rename_row (nm ind) <$> rows). split_and!; [by eapply dg_iter_drains|done|].
    intros u ns Hr. by apply (dg_left_slice_spec _ last g' Hok' Hrep').
Qed.

(** On the empty graph [normalize] reads [contents[0]] of an empty vector without a check. *)
Theorem C38_normalize_empty_refuted : ∃ G g, graph_wf G ∧ loopless G ∧ dg_with_ordering G [] = Ok g ∧
  (∀ u, contains G u = false) ∧ dg_normalize g = Panic.
Proof.
  exists (eg_graph eg_new), dg_new. split_and!; [|by intros u|done|done|done].
  apply eg_graph_wf, eg_reachable_wf. by exists [], [].
Qed.

(** ** C39 *)
Theorem C39_to_degeneracy_graph (G : graph) (order : list N) (og : ordgraph) :
  graph_wf G → loopless G → NoDup order → (∀ u v, adjacent G u v = true → u ∈ order) →
  og_with_ordering G order = Ok og →
  (N.of_nat (3 * length order + num_edges G) <= u32_mod)%N →
  ∃ g, og_to_degeneracy_graph og = Ok g ∧ degen_of G order g ∧
    vertices (dg_graph g) = vertices (og_graph og) ∧
    (∀ u, contains (dg_graph g) u = contains (og_graph og) u) ∧
    (∀ u v, adjacent (dg_graph g) u v = adjacent (og_graph og) u v) ∧
    (∀ u, u ∈ order → ∃ l, left_neighbours (dg_lgraph g) u = Ok l ∧ left_neighbours (og_lgraph og) u = Ok l).
Proof.
  intros Hwf Hl Hnd Hcov Hog Hsz. destruct (with_ordering_spec G order Hwf Hl Hnd Hcov) as (og' & Hog' & Hex).
  rewrite Hog in Hog'. injection Hog' as <-.
  destruct (to_degeneracy_spec G order og Hwf Hl Hex Hsz) as (g & Hg & Hdx).
  pose proof (dg_exact_degen_of G order g Hwf Hl Hdx) as Hd. exists g.
  pose proof Hd as (_ & _ & Hv & _ & _ & _ & _ & Hc & Ha & _ & _ & Hlr & _).
  split_and!; [done|done| | | |].
  - by rewrite Hv, (og_verts G order og Hex).
  - intros u. apply eq_true_iff_eq. rewrite Hc. symmetry. apply (og_vtx G order og Hex).
  - intros u v. rewrite Ha. symmetry. apply eq_true_iff_eq. apply (og_adj G order og Hwf Hl Hex).
  - intros u Hu. destruct (Hlr u Hu) as (l & _ & Hll & _ & Hlo & _). destruct (og_left_spec G order og Hex u Hu) as (l' & Hl' & Hlo').
    exists l. split; [done|]. cbn. rewrite Hl'. f_equal.
    eapply lists_in_order_unique; [exact Hnd|exact Hlo'|exact Hlo].
Qed.
End with_iter.

Local Existing Instance std_iter.

(** Concrete cases: [ex_g2] (path 0-1-2 plus isolated 5) in the order 2,5,0,1. *)
Example ex_C37 : (∀ u, u ∈ [2; 5; 0; 1]%N ↔ contains (eg_graph ex_g2) u = true) ∧ NoDup [2; 5; 0; 1]%N ∧
  (N.of_nat (3 * 4 + num_edges (eg_graph ex_g2)) <= u32_mod)%N ∧
  (g ← dg_with_ordering (eg_graph ex_g2) [2; 5; 0; 1]%N;
   l ← left_neighbours (dg_lgraph g) 1; Ok (vertices (dg_graph g), l, dg_contents g))
  = Ok ([2; 5; 0; 1], [2; 0], [2; 3; 0; 5; 6; 0; 0; 9; 0; 1; 9; 2; 2; 0])%N.
Proof.
  split; [|split; [|split; [vm_compute; done|vm_compute; done]]].
  - intros u. destruct ex_algorithms_reachable as (_ & Hw & _). rewrite <- (wf_vertices _ Hw u).
    assert (vertices (eg_graph ex_g2) ≡ₚ [2; 5; 0; 1]%N) as ->; [|done].
    apply (bool_decide_unpack _). vm_compute. done.
  - apply (bool_decide_unpack _). vm_compute. done.
Qed.
Example ex_C38 :
  (g ← dg_with_ordering (eg_graph ex_g2) [2; 5; 0; 1]%N; r ← dg_normalize g;
   l ← left_neighbours (dg_lgraph r.2) 3; Ok (map_to_list r.1, vertices (dg_graph r.2), l, dg_contents r.2))
  = Ok ([(0, 2); (1, 5); (3, 1); (2, 0)], [0; 1; 2; 3], [0; 2], [0; 3; 0; 1; 6; 0; 2; 9; 0; 3; 9; 2; 0; 2])%N.
Proof. vm_compute. done. Qed.
Example ex_C39 :
  (og ← og_with_ordering (eg_graph ex_g2) [2; 5; 0; 1]%N; g ← og_to_degeneracy_graph og;
   Ok (dg_contents g)) = Ok [2; 3; 0; 5; 6; 0; 0; 9; 0; 1; 9; 2; 2; 0]%N.
Proof. vm_compute. done. Qed.

Print Assumptions C37_with_ordering.
Print Assumptions C37_from_graph.
Print Assumptions C38_normalize_partial.
Print Assumptions C38_normalize_empty_refuted.
Print Assumptions C39_to_degeneracy_graph.
