(** Property C96: the functions written for every Graph and Digraph, called on a DTFGraph or a DTFLayer. *)
From Verif Require Import Base Spec M_Graph M_Iterators M_EditGraph M_EditDigraph M_Algorithms M_Operations M_OrdGraph M_DTF M_DTFView M_IO
  S_Graph S_Multi S_DTF P_EditGraph P_EditGraph2 P_Degeneracy P_Operations P_EditDigraph2 P_OrdGraph P_DTF P_DTF2 P_DTF3 P_DTF6 T_EditGraph T_DTF.

Section with_iter.
Context `{HI : HashIter}.

(** ** Graphs whose [neighbours] always panics *)
Lemma mapM_panic {A B} (f : A → res B) l : l ≠ [] → (∀ x, f x = Panic) → mapM f l = Panic.
Proof. intros Hl Hf. destruct l as [|x l]; [done|]. cbn. by rewrite Hf. Qed.
Lemma fold_panic {A S} (f : S → A → res S) l s : l ≠ [] → (∀ s x, f s x = Panic) → fold_res f l s = Panic.
Proof. intros Hl Hf. destruct l as [|x l]; [done|]. cbn. by rewrite Hf. Qed.
Lemma hash_iter_ne s (X : gset N) : X ≠ ∅ → hash_iter s X ≠ [].
Proof. intros HX E. apply HX. apply set_eq. intros x. rewrite <- (elem_of_hash_iter s), E. set_solver. Qed.
Lemma collect_ne (X : list N) : X ≠ [] → (collect_set X : gset N) ≠ ∅.
Proof. destruct X as [|x X]; [done|]. intros _ E. assert (x ∈ (collect_set (x :: X) : gset N)) as Hx by (unfold collect_set; set_solver). rewrite E in Hx. set_solver. Qed.

Section mute.
Context (G : graph) (Hne : vertices G ≠ []) (Hn : ∀ v, neighbours G v = Panic).

Lemma mute_edges : edges G = Panic.
Proof using Hne Hn. unfold edges. rewrite mapM_panic; [done|exact Hne|]. intros v. by rewrite Hn. Qed.
Lemma mute_mixed : vertices_and_edges G = Panic.
Proof using Hne Hn. unfold vertices_and_edges. rewrite mapM_panic; [done|exact Hne|]. intros v. by rewrite Hn. Qed.
Lemma mute_closed X : X ≠ [] → closed_neighbourhood G X = Panic.
Proof using Hn. intros HX. apply fold_panic; [exact HX|]. intros s v. by rewrite Hn. Qed.
Lemma mute_neighbourhood X : X ≠ [] → neighbourhood G X = Panic.
Proof using Hn.
  intros HX. unfold neighbourhood. rewrite fold_panic; [done|by apply hash_iter_ne, collect_ne|]. intros s v. by rewrite Hn.
Qed.
Lemma mute_subgraph X : X ≠ [] → subgraph G X = Panic.
Proof using Hn. intros HX. unfold subgraph. apply fold_panic; [by apply hash_iter_ne, collect_ne|]. intros s v. by rewrite Hn. Qed.
Lemma mute_r X r : X ≠ [] → r_neighbourhood G X (S r) = Panic.
Proof using Hn. intros HX. unfold r_neighbourhood. cbn. rewrite mute_closed; [done|]. by apply hash_iter_ne, collect_ne. Qed.

Lemma mute_degeneracy : num_vertices G ≠ 0 → degeneracy G = Panic.
Proof using Hne Hn.
  intros Hz. unfold degeneracy. destruct (num_vertices G) as [|n]; [done|]. cbn [seq]. rewrite fold_res_cons.
  assert (∃ d w, inb (dgn_init G).2 d w) as Hb.
  { unfold dgn_init. destruct (exists_last Hne) as (vs & v & ->). rewrite foldl_app. cbn. set (s := foldl _ _ _).
    exists (calc_index (degree G v)), v. unfold inb, map_upd. eexists. rewrite lookup_insert. split; [done|]. set_solver. }
  cbv zeta. set (s0 := DgnSt [] _ _ _ _). assert (dgn_step G s0 0 = Panic) as ->; [|done].
  unfold dgn_step, s0. cbn [dgn_buckets]. destruct (dgn_find_ok _ Hb) as (d & X & -> & HX & HXe & _). cbn [mbind res_bind].
  rewrite HX. cbn [unwrap mbind res_bind]. pose proof (hash_iter_ne 0 X HXe) as Hh. destruct (hash_iter 0 X) as [|v l]; [done|].
  cbn [head unwrap mbind res_bind]. by rewrite Hn.
Qed.
Lemma mute_bipartite : is_bipartite G = Panic.
Proof using Hne Hn.
  unfold is_bipartite. pose proof (collect_ne _ Hne) as Hc. set (U := collect_set (vertices G)) in *. clearbody U.
  assert (size U ≠ 0) as Hs by (intros Hs; by apply Hc, leibniz_equiv, size_empty_inv).
  destruct (size U) as [|n]; [done|]. cbn [bip_outer]. rewrite bool_decide_false by done.
  pose proof (hash_iter_ne n U Hc) as Hh. destruct (hash_iter n U) as [|u l]; [done|]. cbn [head unwrap mbind res_bind].
  unfold bip_fuel. cbn [Nat.add bip_loop]. rewrite lookup_empty, Hn. done.
Qed.
Lemma mute_ops H k : components G = Panic ∧ merge_graphs G H = Panic ∧ intersect_graphs G H = Panic ∧ compare_subgraph G H = Panic ∧
  subdivide G k = Panic ∧ graph_write G = Panic.
Proof using Hne Hn.
  unfold components, merge_graphs, intersect_graphs, compare_subgraph, subdivide, graph_write. rewrite mute_edges. done.
Qed.
End mute.

Lemma product_ne G H : vertices G ≠ [] → vertices H ≠ [] → map_iter 0 (product_ids G H).1.1 ≠ [].
Proof.
  intros HG HH. assert ((product_ids G H).1.1 ≠ ∅) as Hne.
  { unfold product_ids. destruct (exists_last HG) as (us & u & ->). destruct (exists_last HH) as (vs & v & ->).
    rewrite foldl_app. cbn. rewrite foldl_app. cbn. apply insert_non_empty. }
  intros E. apply Hne. apply map_eq. intros p. rewrite lookup_empty. apply eq_None_not_Some. intros [x Hx].
  apply (elem_of_map_iter 0) in Hx. rewrite E in Hx. set_solver.
Qed.
Lemma mute_product G H : vertices G ≠ [] → vertices H ≠ [] → (∀ v, neighbours G v = Panic) → (∀ v, neighbours H v = Panic) →
  cartesian_product G H = Panic ∧ lexicographic_product G H = Panic.
Proof.
  intros HG HH NG NH. unfold cartesian_product, lexicographic_product.
  rewrite !fold_panic; [done|by apply product_ne| |by apply product_ne|].
  - intros s [[u v] x]. by rewrite NG.
  - intros s [[u v] x]. by rewrite NH.
Qed.

(** [view g D]: D is the DTFGraph g or a layer of it. *)
Definition view (g : dtfgraph) (D : digraph) : Prop := D = df_digraph g ∨ ∃ d, D = dl_digraph g d.

Lemma df_vertices_ne g v : df_contains g v = true → df_vertices g ≠ [] ∧ df_num_vertices g ≠ 0.
Proof.
  intros [n Hv]%df_contains_spec. split.
  - apply hash_iter_ne. intros E. assert (v ∈ (dom (df_nodes g) : gset N)) as Hd by (apply elem_of_dom; eauto). rewrite E in Hd. set_solver.
  - unfold df_num_vertices. intros Hs%map_size_empty_inv. by rewrite Hs, lookup_empty in Hv.
Qed.

(** Every function that enumerates neighbours fails on every DTFGraph and every layer with a vertex. *)
Theorem C96_unimplemented (g : dtfgraph) (v : N) (D E : digraph) : df_contains g v = true → view g D → view g E →
  let G := dg D in
  edges G = Panic ∧ vertices_and_edges G = Panic ∧ components G = Panic ∧ degeneracy G = Panic ∧ is_bipartite G = Panic ∧
  df_orient G = Panic ∧ graph_write G = Panic ∧ arcs D = Panic ∧
  (∀ X, X ≠ [] → neighbourhood G X = Panic ∧ closed_neighbourhood G X = Panic ∧ subgraph G X = Panic ∧
     out_neighbourhood D X = Panic ∧ ∀ r, r_neighbourhood G X (S r) = Panic) ∧
  merge_graphs G (dg E) = Panic ∧ intersect_graphs G (dg E) = Panic ∧ compare_subgraph G (dg E) = Panic ∧
  cartesian_product G (dg E) = Panic ∧ lexicographic_product G (dg E) = Panic ∧ ∀ k, subdivide G k = Panic.
Proof.
  intros [Hne Hz]%df_vertices_ne HD HE G.
  assert (∀ D, view g D → vertices (dg D) ≠ [] ∧ num_vertices (dg D) ≠ 0 ∧ (∀ v, neighbours (dg D) v = Panic) ∧ (∀ v, out_neighbours D v = Panic)) as Hv.
  { intros D' [->|[d ->]]; done. }
  destruct (Hv D HD) as (H1 & H2 & H3 & H4), (Hv E HE) as (H1' & _ & H3' & _). fold G in H1, H2, H3.
  destruct (mute_ops G H1 H3 (dg E) 0%N) as (O1 & O2 & O3 & O4 & _ & O6).
  destruct (mute_product G (dg E) H1 H1' H3 H3') as [P1 P2].
  split_and!; [by apply mute_edges|by apply mute_mixed|done|by apply mute_degeneracy|by apply mute_bipartite| |done| | |done|done|done|done|done|].
  - unfold df_orient. by rewrite mute_degeneracy.
  - unfold arcs. rewrite mapM_panic; [done|exact H1|]. intros x. by rewrite H4.
  - intros X HX. split_and!; [by apply mute_neighbourhood|by apply mute_closed|by apply mute_subgraph| |intros r; by apply mute_r].
    unfold out_neighbourhood. rewrite fold_panic; [done|by apply hash_iter_ne, collect_ne|]. intros s x. by rewrite H4.
  - intros k. by apply (mute_ops G H1 H3 G k).
Qed.

(** [invert] looks at [adjacent] only.  A layer answers it for all weights, so the complement is the same for every layer. *)
Theorem C96_invert (g : dtfgraph) : dtf_any g →
  ∃ h, invert (df_graph g) = Ok h ∧ (∀ d, invert (dl_graph g d) = Ok h) ∧ eg_reachable h ∧ (∀ v, eg_contains h v = df_contains g v) ∧
    (∀ u v, eg_adjacent h u v = true ↔ df_contains g u = true ∧ df_contains g v = true ∧ u ≠ v ∧
       ∀ w, ¬ harc g w u v ∧ ¬ harc g w v u).
Proof.
  intros Hany. pose proof (any_wf g Hany) as Hg.
  set (G := {| num_vertices := df_num_vertices g; num_edges := 0; contains := df_contains g; adjacent := df_adjacent g; degree := λ _, 0;
    vertices := df_vertices g; neighbours := λ u, Ok (filter (λ v, df_adjacent g u v = true) (df_vertices g)) |}).
  assert (∀ v, v ∈ df_vertices g ↔ df_contains g v = true) as Hvs.
  { intros v. unfold df_vertices. rewrite elem_of_hash_iter, elem_of_dom. symmetry. apply df_contains_spec. }
  assert (∀ u v, df_adjacent g u v = true → df_contains g u = true) as Hend.
  { intros u v [i [Ha|Ha]]%df_adjacent_spec; apply df_contains_spec.
    - destruct (dw_src g Hg _ _ _ Ha) as (n & Hn & _). by exists n.
    - destruct Ha as (n & X & Hn & _). by exists n. }
  assert (∀ u v, df_adjacent g u v = df_adjacent g v u) as Hsym by (intros u v; unfold df_adjacent; apply orb_comm).
  assert (weak_wf G) as Hw.
  { split; cbn.
    - exact Hvs.
    - apply NoDup_hash_iter.
    - unfold df_num_vertices, df_vertices. rewrite hash_iter_length. by rewrite size_dom.
    - exact Hend.
    - intros u v Ha. unfold adj in *. cbn in *. by rewrite Hsym.
    - intros u Hu. eexists. split; [done|]. intros v. rewrite elem_of_list_filter, Hvs. split; [tauto|]. intros Ha. split; [exact Ha|].
      apply (Hend v u). rewrite Hsym. exact Ha. }
  destruct (invert_spec G Hw) as (h & Eh & Wh & Vh & Ah). exists h. split_and!; [exact Eh|intros d; exact Eh|by apply eg_reachable_wf| |].
  - intros v. apply eq_true_iff_eq. apply Vh.
  - intros u v. rewrite (Ah u v). unfold vtx, adj. cbn [contains adjacent G]. rewrite df_adjacent_spec. setoid_rewrite harc_arc.
    split.
    + intros (? & ? & ? & Hno). split_and!; [done|done|done|]. intros w. split; intros (i & _ & Hi); apply Hno; eauto.
    + intros (? & ? & ? & Hno). split_and!; [done|done|done|]. intros [i [Hi|Hi]]; [apply (proj1 (Hno (S i)))|apply (proj2 (Hno (S i)))]; eauto.
Qed.

(** [in_neighbourhood] of the graph uses all arcs, of a layer the arcs of that weight. *)
Theorem C96_in_neighbourhood (g : dtfgraph) (X : list N) : dtf_any g → (∀ v, v ∈ X → df_contains g v = true) →
  (∃ S, in_neighbourhood (df_digraph g) X = Ok S ∧ ∀ u, u ∈ S ↔ u ∉ X ∧ ∃ v w, v ∈ X ∧ harc g w u v) ∧
  (∀ w, 1 ≤ w ≤ df_depth g → ∃ S, in_neighbourhood (dl_digraph g w) X = Ok S ∧ ∀ u, u ∈ S ↔ u ∉ X ∧ ∃ v, v ∈ X ∧ harc g w u v).
Proof.
  intros Hany HX. pose proof (any_wf g Hany) as Hg.
  assert (∀ v, v ∈ hash_iter 0 (collect_set X : gset N) ↔ v ∈ X) as Hc.
  { intros v. rewrite elem_of_hash_iter. unfold collect_set. apply elem_of_list_to_set. }
  assert (∀ v, v ∈ X → dvx g v) as Hd by (intros v Hv; by apply df_contains_spec, HX).
  split.
  - destruct (fold_union_spec (df_in_neighbours g) (λ v u, ∃ i, arc g i u v) (hash_iter 0 (collect_set X)) ∅) as (S & HS & HSe).
    { intros v Hv%Hc. apply in_neighbours_spec. by apply Hd. }
    unfold in_neighbourhood. cbn [in_neighbours df_digraph]. rewrite HS. cbn [mbind res_bind]. eexists. split; [done|]. intros u.
    rewrite elem_of_filter, HSe. unfold collect_set at 1. rewrite elem_of_list_to_set. split.
    + intros [Hu [?|(v & Hv%Hc & i & Hi)]]; [set_solver|]. split; [done|]. exists v, (Datatypes.S i). split; [done|]. apply harc_arc. eauto.
    + intros [Hu (v & w & Hv & (i & -> & Hi)%harc_arc)]. split; [done|]. right. exists v. split; [by apply Hc|]. eauto.
  - intros [|i] Hw; [lia|].
    destruct (fold_union_spec (λ v, df_in_at g v (S i)) (λ v u, arc g i u v) (hash_iter 0 (collect_set X)) ∅) as (S & HS & HSe).
    { intros v Hv%Hc. destruct (in_at_spec g v i Hg) as (l & Hl & _ & Hm); [by apply Hd|lia|]. eauto. }
    unfold in_neighbourhood. cbn [in_neighbours dl_digraph]. unfold dl_in_neighbours. rewrite HS. cbn [mbind res_bind]. eexists. split; [done|]. intros u.
    rewrite elem_of_filter, HSe. unfold collect_set at 1. rewrite elem_of_list_to_set. setoid_rewrite harc_S. split.
    + intros [Hu [?|(v & Hv%Hc & Hi)]]; [set_solver|]. eauto.
    + intros [Hu (v & Hv & Hi)]. split; [done|]. right. exists v. split; [by apply Hc|done].
Qed.

(** C70: a layer seen through the traits: [has_arc] and [in_neighbours] refer to the arcs of its weight, [adjacent] to the arcs of all
    weights in both directions.  That [adjacent] should refer to the arcs of the weight only is false ([C70_refuted]). *)
Theorem C70_view_partial (G : graph) (g : dtfgraph) (w : nat) : graph_wf G → loopless G → dtf_reach_layer G g → 1 ≤ w ≤ df_depth g →
  (∀ u v, has_arc (dl_digraph g w) u v = true ↔ harc g w u v) ∧
  (∀ v, contains G v = true → ∃ l, in_neighbours (dl_digraph g w) v = Ok l ∧ NoDup l ∧ ∀ u, u ∈ l ↔ harc g w u v) ∧
  (∃ E : gset (N * N), (∀ u v, (u, v) ∈ E ↔ harc g w u v) ∧ num_edges (dl_graph g w) = size E) ∧
  (∀ u v, adjacent (dl_graph g w) u v = true ↔ ∃ k, harc g k u v ∨ harc g k v u) ∧
  (∀ v, contains (dl_graph g w) v = contains G v).
Proof.
  intros HG Hl Hr Hw. destruct (C70_layer_partial G g w HG Hl Hr Hw) as (Ha & Hi & (E & HE & Hm) & _). destruct (reach_layer_inv G g HG Hl Hr) as [Hinv _].
  assert (∀ u v, dl_has_arc g w u v = Ok true ↔ harc g w u v) as Hb.
  { intros u v. destruct (Ha u v) as (b & -> & <-). split; [by intros [= ->]|by intros ->]. }
  split_and!.
  - intros u v. cbn [has_arc dl_digraph]. destruct (Ha u v) as (b & -> & Hb'). exact Hb'.
  - intros v Hv. destruct (Hi v Hv) as (l & Hl' & Hnd & Hm'). exists l. split_and!; [exact Hl'|done|]. intros u. by rewrite Hm', Hb.
  - exists E. split; [intros u v; by rewrite HE, Hb|]. cbn [num_edges dl_graph]. by rewrite Hm.
  - intros u v. cbn [adjacent dl_graph]. unfold dl_adjacent. rewrite df_adjacent_spec. split.
    + intros [i H]. exists (S i). by rewrite !harc_S.
    + intros [k [(i & _ & H)%harc_arc|(i & _ & H)%harc_arc]]; exists i; [by left|by right].
  - intros v. cbn [contains dl_graph]. apply eq_true_iff_eq. rewrite df_contains_spec. exact (ai_vtx G g Hinv v).
Qed.

(** The three degree maps of an augmentation count its arcs of all weights, and those of a layer do too. *)
Theorem C96_degrees (G : graph) (g : dtfgraph) : graph_wf G → loopless G → dtf_reach G g →
  ∃ mi mo, in_degrees (df_digraph g) = Ok mi ∧ out_degrees (df_digraph g) = Ok mo ∧
    (∀ d, in_degrees (dl_digraph g d) = Ok mi ∧ out_degrees (dl_digraph g d) = Ok mo ∧ degrees (dl_graph g d) = degrees (df_graph g)) ∧
    (∀ v, contains G v = true → ∃ I O : gset N, (∀ u, u ∈ I ↔ ∃ w, harc g w u v) ∧ (∀ u, u ∈ O ↔ ∃ w, harc g w v u) ∧
       mi !! v = Some (size I) ∧ mo !! v = Some (size O) ∧ degrees (df_graph g) !! v = Some (size I + size O)) ∧
    (∀ v, contains G v = false → mi !! v = None ∧ mo !! v = None ∧ degrees (df_graph g) !! v = None).
Proof.
  intros HG Hl Hr. destruct (C71_weights_agree G g HG Hl Hr) as (_ & Hin & Hha & _ & Hout).
  destruct (reach_closed G g HG Hl Hr) as (Hinv & _).
  assert (∀ v, v ∈ df_vertices g ↔ contains G v = true) as Hvs.
  { intros v. unfold df_vertices. rewrite elem_of_hash_iter, elem_of_dom. split; intros Hv; by apply (ai_vtx G g Hinv). }
  set (di := λ v, match df_in_degree g v with Ok d => d | _ => 0 end). set (do := λ v, match df_out_degree g v with Ok d => d | _ => 0 end).
  destruct (fold_degrees (df_in_degree g) di (df_vertices g) ∅) as (mi & Emi & Hmi).
  { intros v (m & li & _ & _ & _ & _ & _ & E)%Hvs%Hin. unfold di. by rewrite E. }
  destruct (fold_degrees (df_out_degree g) do (df_vertices g) ∅) as (mo & Emo & Hmo).
  { intros v (E & k & _ & E' & _)%Hvs%Hout. unfold do. by rewrite E'. }
  assert (∀ v, degrees (df_graph g) !! v = if decide (v ∈ df_vertices g) then Some (degree (df_graph g) v) else None) as Hdeg.
  { intros v. unfold degrees. cbn [vertices df_graph]. set (f := degree (df_graph g)). clearbody f. clear.
    induction (df_vertices g) as [|x l IH] using rev_ind; [done|]. rewrite foldl_app. cbn. destruct (decide (x = v)) as [->|Hx].
    - rewrite lookup_insert, decide_True; [done|]. set_solver.
    - rewrite lookup_insert_ne, IH by done. apply decide_ext. set_solver. }
  exists mi, mo. split_and!; [exact Emi|exact Emo|intros d; split_and!; [exact Emi|exact Emo|done]| |].
  - intros v Hv. destruct (Hin v Hv) as (m & li & _ & Hm & _ & _ & _ & E1), (Hout v Hv) as (O & k & HO & E2 & E3 & E4).
    exists (dom m), O. assert (size (dom m) = size m) as Hs by apply size_dom. rewrite E1 in E3. injection E3 as <-. split_and!.
    + intros u. rewrite elem_of_dom. unfold is_Some. by setoid_rewrite Hm.
    + intros u. by rewrite HO, Hha.
    + rewrite Hs. apply Hmi. left. split; [by apply Hvs|]. unfold di. by rewrite E1.
    + apply Hmo. left. split; [by apply Hvs|]. unfold do. by rewrite E2.
    + rewrite Hdeg, decide_True by by apply Hvs. cbn [degree df_graph]. rewrite E4, Hs. f_equal. lia.
  - intros v Hv. assert (v ∉ df_vertices g) as Hn by (rewrite Hvs; congruence).
    split_and!; [|  |by rewrite Hdeg, decide_False].
    + apply eq_None_not_Some. intros [k [[? _]|[_ Hk]]%Hmi]; [done|]. by rewrite lookup_empty in Hk.
    + apply eq_None_not_Some. intros [k [[? _]|[_ Hk]]%Hmo]; [done|]. by rewrite lookup_empty in Hk.
Qed.
End with_iter.

#[local] Existing Instance std_iter.

(** The complement of a layer is not the complement of the arcs of the layer, and its degree maps do not count them. *)
Theorem C96_refuted : ∃ (G : graph) g, graph_wf G ∧ loopless G ∧ dtf_reach G g ∧
  has_arc (dl_digraph g 1) 1 3 = false ∧ has_arc (dl_digraph g 1) 3 1 = false ∧
  (h ← invert (dl_graph g 1); Ok (eg_adjacent h 1 3)) = Ok false ∧
  (S ← in_neighbourhood (dl_digraph g 1) [3%N]; Ok (size S)) = Ok 1 ∧
  (m ← in_degrees (dl_digraph g 1); Ok (m !! 3%N)) = Ok (Some 3).
Proof.
  exists (eg_graph ex_dtf_graph), (ex_dtf_run ex_dtf_edges 3 2). destruct (ex_dtf_ok ex_dtf_edges 3 2) as (Hwf & Hl & Hr); [done|].
  split; [exact Hwf|]. split; [exact Hl|]. split; [exact Hr|]. vm_compute. split_and!; reflexivity.
Qed.

(** ** Concrete cases *)
Example ex_C96_unimplemented : df_contains (ex_dtf_run ex_dtf_edges 3 2) 0 = true ∧
  view (ex_dtf_run ex_dtf_edges 3 2) (dl_digraph (ex_dtf_run ex_dtf_edges 3 2) 2) ∧
  edges (dl_graph (ex_dtf_run ex_dtf_edges 3 2) 2) = Panic ∧ edges (df_graph df_new) = Ok [] ∧ degeneracy (df_graph df_new) = Ok (0, 0, [], ∅).
Proof. split; [vm_compute; reflexivity|]. split; [right; by exists 2|]. vm_compute. split_and!; reflexivity. Qed.
Example ex_C70_view : dtf_reach (eg_graph ex_dtf_graph) (ex_dtf_run ex_dtf_edges 3 2) ∧ 1 ≤ 2 ≤ df_depth (ex_dtf_run ex_dtf_edges 3 2) ∧
  has_arc (dl_digraph (ex_dtf_run ex_dtf_edges 3 2) 1) 0 3 = true ∧ has_arc (dl_digraph (ex_dtf_run ex_dtf_edges 3 2) 1) 3 0 = false ∧
  adjacent (dl_graph (ex_dtf_run ex_dtf_edges 3 2) 1) 3 0 = true.
Proof. split; [by apply (ex_dtf_ok ex_dtf_edges 3 2)|]. split; [vm_compute; lia|]. vm_compute. split_and!; reflexivity. Qed.
Example ex_C96_invert : dtf_any (ex_dtf_run ex_dtf_edges 3 2) ∧
  (h ← invert (dl_graph (ex_dtf_run ex_dtf_edges 3 2) 1); es ← edges (eg_graph h); Ok es) = Ok [(3, 5); (3, 4); (3, 6)]%N ∧
  (h ← invert (df_graph (ex_dtf_run ex_dtf_edges 3 2)); Ok (eg_adjacent h 0 1, eg_contains h 0)) = Ok (false, true).
Proof. split; [by apply ex_dtf_any|]. vm_compute. split_and!; reflexivity. Qed.
Example ex_C96_in_neighbourhood : dtf_any (ex_dtf_run ex_dtf_edges 3 2) ∧
  (S ← in_neighbourhood (df_digraph (ex_dtf_run ex_dtf_edges 3 2)) [5; 3]%N; Ok (elements S)) = Ok [0; 1; 2; 4; 6]%N ∧
  (S ← in_neighbourhood (dl_digraph (ex_dtf_run ex_dtf_edges 3 2) 2) [5; 3]%N; Ok (elements S)) = Ok [0; 1; 2]%N.
Proof. split; [by apply ex_dtf_any|]. vm_compute. split_and!; reflexivity. Qed.
Example ex_C96_degrees : dtf_reach (eg_graph ex_dtf_graph) (ex_dtf_run ex_dtf_edges 3 2) ∧
  (m ← in_degrees (df_digraph (ex_dtf_run ex_dtf_edges 3 2)); Ok (map_to_list m)) =
    Ok [(0%N, 2); (1%N, 1); (3%N, 3); (5%N, 5); (2%N, 0); (4%N, 3); (6%N, 4)] ∧
  (m ← out_degrees (df_digraph (ex_dtf_run ex_dtf_edges 3 2)); Ok (map_to_list m)) =
    Ok [(0%N, 4); (1%N, 5); (3%N, 0); (5%N, 0); (2%N, 6); (4%N, 2); (6%N, 1)] ∧
  map_to_list (degrees (df_graph (ex_dtf_run ex_dtf_edges 3 2))) =
    [(0%N, 6); (1%N, 6); (3%N, 3); (5%N, 5); (2%N, 6); (4%N, 5); (6%N, 5)].
Proof. split; [by apply (ex_dtf_ok ex_dtf_edges 3 2)|]. vm_compute. split_and!; reflexivity. Qed.

Print Assumptions C96_unimplemented.
Print Assumptions C96_invert.
Print Assumptions C96_in_neighbourhood.
Print Assumptions C96_degrees.
Print Assumptions C96_refuted.
Print Assumptions C70_view_partial.
