(** Bulk operations of EditDigraph: clone, generators, unions, normalisation,
    neighbourhoods, equality. *)
From Verif Require Import Base Spec M_Graph M_Iterators M_EditGraph M_EditDigraph S_Graph S_Digraph
  P_EditGraph P_EditGraph2 P_Graph P_Iterators P_Adds P_Generators P_Unions P_EditDigraph.

(** As [adds] in P_Adds.v, for digraphs. *)
Definition dadds (f : editdigraph → res editdigraph) (PV : N → Prop) (PE : N → N → Prop) : Prop :=
  ∀ h, ed_wf h → ∃ h', f h = Ok h' ∧ ed_wf h' ∧
    (∀ x, dvtx h' x ↔ dvtx h x ∨ PV x) ∧ (∀ x y, darc h' x y ↔ darc h x y ∨ PE x y).

Lemma dadds_ext f g PV PE PV' PE' :
  dadds f PV PE → (∀ h, f h = g h) → (∀ x, PV x ↔ PV' x) → (∀ x y, PE x y ↔ PE' x y) →
  dadds g PV' PE'.
Proof.
  intros H Hf HV HE h Hh. destruct (H h Hh) as (h' & Hok & Hwf & H1 & H2).
  exists h'. rewrite <- Hf. split_and!; [done|done| |].
  - intros x. by rewrite H1, HV.
  - intros x y. by rewrite H2, HE.
Qed.
Lemma dadds_arc u v :
  dadds (λ h, r ← ed_add_arc h u v; Ok r.1) (λ x, x = u ∨ x = v) (λ x y, x = u ∧ y = v).
Proof.
  intros h Hh. destruct (ed_add_arc_spec h u v Hh) as (h' & -> & Hwf & H1 & H2 & _).
  cbn. exists h'. split_and!; auto.
Qed.
Lemma dadds_vertex u :
  dadds (λ h, Ok (ed_add_vertex h u).1) (λ x, x = u) (λ x y, False).
Proof.
  intros h Hh. destruct (ed_add_vertex_spec h u Hh) as (Hwf & _ & H1 & H2).
  eexists; split; [done|]. split_and!; [done|done|]. intros x y. rewrite H2. naive_solver.
Qed.
Lemma dadds_ret : dadds Ok (λ _, False) (λ _ _, False).
Proof. intros h Hh. exists h. naive_solver. Qed.
Lemma dadds_seq f g PV PE PV' PE' :
  dadds f PV PE → dadds g PV' PE' →
  dadds (λ h, f h ≫= g) (λ x, PV x ∨ PV' x) (λ x y, PE x y ∨ PE' x y).
Proof.
  intros Hf Hg h Hh. destruct (Hf h Hh) as (h1 & -> & Hwf & H1 & H2). cbn.
  destruct (Hg h1 Hwf) as (h2 & -> & Hwf2 & H3 & H4). exists h2. split_and!; [done|done| |].
  - intros x. rewrite H3, H1. naive_solver.
  - intros x y. rewrite H4, H2. naive_solver.
Qed.
Lemma dadds_fold {A} (f : editdigraph → A → res editdigraph) l (PV : A → N → Prop) (PE : A → N → N → Prop) :
  (∀ a, a ∈ l → dadds (λ h, f h a) (PV a) (PE a)) →
  dadds (fold_res f l) (λ x, ∃ a, a ∈ l ∧ PV a x) (λ x y, ∃ a, a ∈ l ∧ PE a x y).
Proof.
  induction l as [|a l IH]; intros Hl.
  - eapply dadds_ext; [apply dadds_ret|done|set_solver|set_solver].
  - assert (dadds (λ h, f h a ≫= fold_res f l) (λ x, PV a x ∨ ∃ b, b ∈ l ∧ PV b x)
       (λ x y, PE a x y ∨ ∃ b, b ∈ l ∧ PE b x y)) as H.
    { apply (dadds_seq (λ h, f h a)); [apply Hl; set_solver|]. apply IH. set_solver. }
    eapply dadds_ext; [exact H|done| |]; setoid_rewrite elem_of_cons; naive_solver.
Qed.
Lemma dadds_new f PV PE :
  dadds f PV PE →
  ∃ h, f ed_new = Ok h ∧ ed_wf h ∧ (∀ x, dvtx h x ↔ PV x) ∧ (∀ x y, darc h x y ↔ PE x y).
Proof.
  intros H. destruct (H ed_new ed_new_wf) as (h & Hok & Hwf & H1 & H2).
  exists h. split_and!; [done|done| |].
  - intros x. rewrite H1. pose proof (ed_new_v x). naive_solver.
  - intros x y. rewrite H2. pose proof (ed_new_a x y). naive_solver.
Qed.
Lemma dadds_arc_fold {A} (f g : A → N) l :
  dadds (fold_res (λ h a, r ← ed_add_arc h (f a) (g a); Ok r.1) l)
    (λ x, ∃ a, a ∈ l ∧ (x = f a ∨ x = g a)) (λ x y, ∃ a, a ∈ l ∧ x = f a ∧ y = g a).
Proof. apply (dadds_fold _ l (λ a x, x = f a ∨ x = g a) (λ a x y, x = f a ∧ y = g a)). intros a _. apply dadds_arc. Qed.
Lemma dadds_vertices vs :
  dadds (λ h, Ok (foldl (λ h u, (ed_add_vertex h u).1) h vs)) (λ x, x ∈ vs) (λ _ _, False).
Proof.
  eapply dadds_ext.
  - apply (dadds_fold (λ h u, Ok (ed_add_vertex h u).1) vs (λ u x, x = u) (λ _ _ _, False)).
    intros a _. apply dadds_vertex.
  - intros h. revert h. induction vs as [|v vs IH]; intros h; cbn; [done|]. apply IH.
  - naive_solver.
  - naive_solver.
Qed.
Lemma ed_add_vertices_fst g vs n :
  (foldl (λ s v, let r := ed_add_vertex s.1 v in (r.1, if r.2 : bool then s.2 + 1 else s.2)) (g, n) vs).1
  = foldl (λ h u, (ed_add_vertex h u).1) g vs.
Proof. revert g n. induction vs as [|v vs IH]; intros g n; cbn; [done|]. apply IH. Qed.
Lemma dadds_add_vertices vs :
  dadds (λ h, Ok (ed_add_vertices h vs).1) (λ x, x ∈ vs) (λ _ _, False).
Proof.
  eapply dadds_ext; [apply (dadds_vertices vs)| |done|done].
  intros h. unfold ed_add_vertices. by rewrite ed_add_vertices_fst.
Qed.
Lemma ed_add_arcs_fst g n es :
  (r ← fold_res (λ s e, r ← ed_add_arc s.1 e.1 e.2; Ok (r.1, if r.2 : bool then s.2 + 1 else s.2)) es (g, n); Ok r.1)
  = fold_res (λ h e, r ← ed_add_arc h e.1 e.2; Ok r.1) es g.
Proof.
  revert g n. induction es as [|e es IH]; intros g n; cbn; [done|].
  destruct (ed_add_arc g e.1 e.2) as [[h b]| |]; cbn; [|done|done]. apply IH.
Qed.
Lemma dadds_add_arcs es :
  dadds (λ h, r ← ed_add_arcs h es; Ok r.1)
    (λ x, ∃ e, e ∈ es ∧ (x = e.1 ∨ x = e.2)) (λ x y, (x, y) ∈ es).
Proof.
  eapply dadds_ext.
  - apply (dadds_fold (λ h e, r ← ed_add_arc h e.1 e.2; Ok r.1)).
    intros e _. apply dadds_arc.
  - intros h. unfold ed_add_arcs. by rewrite ed_add_arcs_fst.
  - naive_solver.
  - intros x y. cbv beta. split; [|intros; by exists (x, y)].
    intros ([a b] & He & [-> ->]). done.
Qed.
Lemma dadds_copy (G : graph) (f : N → N) (es : list (N * N)) :
  dadds (λ h, r ← ed_add_arcs (ed_add_vertices h (f <$> vertices G)).1 ((λ e : N * N, (f e.1, f e.2)) <$> es); Ok r.1)
    (λ x, (∃ v, v ∈ vertices G ∧ x = f v) ∨ ∃ e, e ∈ es ∧ (x = f e.1 ∨ x = f e.2))
    (λ x y, ∃ e, e ∈ es ∧ x = f e.1 ∧ y = f e.2).
Proof.
  eapply dadds_ext; [apply (dadds_seq _ _ _ _ _ _ (dadds_add_vertices (f <$> vertices G))
     (dadds_add_arcs ((λ e : N * N, (f e.1, f e.2)) <$> es)))|done| |].
  - intros x. cbv beta. setoid_rewrite elem_of_list_fmap. split.
    + intros [(v & -> & Hv)|(e & (e' & -> & ?) & [->| ->])]; cbn; eauto 10.
    + intros [(v & Hv & ->)|(e & He & [->| ->])]; [eauto|right..]; eexists; (split; [eexists; split; [reflexivity|exact He]|]); cbn; auto.
  - intros x y. cbv beta. rewrite elem_of_list_fmap. split.
    + intros [[]|(e & [= -> ->] & He)]. eauto.
    + intros (e & He & -> & ->). right. eauto.
Qed.

Section with_iter.
Context `{HI : HashIter}.

Lemma ed_clone_spec g : ed_wf g → ed_clone g = Ok g.
Proof.
  intros Hg. unfold ed_clone.
  assert (dadds (fold_res (λ h v,
      let h := (ed_add_vertex h v).1 in
      Nv ← ed_out_neighbours g v;
      fold_res (λ h u, r ← ed_add_arc h v u; Ok r.1) Nv h) (vertices (ed_graph g)))
    (λ x, ∃ v, v ∈ vertices (ed_graph g) ∧ (x = v ∨ darc g v x))
    (λ x y, ∃ v, v ∈ vertices (ed_graph g) ∧ (x = v ∧ darc g v y))) as H.
  { apply (dadds_fold _ _ (λ v x, x = v ∨ darc g v x) (λ v x y, x = v ∧ darc g v y)).
    intros v Hv. rewrite ed_vertices in Hv by done.
    destruct (ed_out_neighbours_spec g v Hg Hv) as (l & Hn & _ & Hl & _). rewrite Hn. cbn [mbind res_bind].
    eapply dadds_ext.
    - apply (dadds_seq _ _ _ _ _ _ (dadds_vertex v) (dadds_arc_fold (λ _, v) (λ u, u) l)).
    - done.
    - intros x. cbv beta. rewrite <- Hl. set_solver.
    - intros x y. cbv beta. rewrite <- Hl. set_solver. }
  apply dadds_new in H as (h & Hok & Hwf & H1 & H2).
  transitivity (Ok h); [exact Hok|]. f_equal.
  apply ed_wf_ext; [done|done| |].
  - intros x. rewrite H1. setoid_rewrite ed_vertices; [|done]. split.
    + intros (v & ? & [->|?]); [done|]. by apply (darc_vtx g v x).
    + eauto.
  - intros x y. rewrite H2. setoid_rewrite ed_vertices; [|done]. split.
    + naive_solver.
    + intros Hxy. exists x. split; [by apply (darc_vtx g x y)|]. done.
Qed.

Lemma ed_from_iter_spec es :
  ∃ h, ed_from_iter es = Ok h ∧ ed_wf h ∧
    (∀ x, dvtx h x ↔ ∃ e, e ∈ es ∧ (x = e.1 ∨ x = e.2)) ∧ (∀ x y, darc h x y ↔ (x, y) ∈ es).
Proof.
  unfold ed_from_iter. destruct (dadds_new _ _ _ (dadds_arc_fold fst snd es)) as (h & ? & ? & H1 & H2).
  exists h. split_and!; [done|done|done|]. intros x y. rewrite H2. split; [|intros; by exists (x, y)].
  intros ([a b] & ? & -> & ->). done.
Qed.

(** The undirected [edges()] of a digraph. *)
Lemma ed_edges_spec g : ed_wf g →
  ∃ es, edges (ed_graph g) = Ok es ∧
    ∀ x y, (x, y) ∈ es ↔ (x <= y)%N ∧ (darc g x y ∨ darc g y x).
Proof.
  intros Hg. unfold edges. cbn [neighbours ed_graph].
  assert (∀ vs, (∀ v, v ∈ vs → dvtx g v) →
    ∃ ls, mapM (M:=res) (λ v, Nv ← ed_neighbours g v; Ok (pair v <$> filter (λ u, ¬ (u < v)%N) (Nv : list N))) vs = Ok ls ∧
     ∀ x y, (x, y) ∈ concat ls ↔ x ∈ vs ∧ (x <= y)%N ∧ (darc g x y ∨ darc g y x)) as HH.
  { induction vs as [|v vs IH]; intros Hvs.
    - exists []. cbn. set_solver.
    - destruct IH as (ls & Hls & Hin); [set_solver|].
      destruct (ed_neighbours_spec g v Hg) as (li & lo & Hl & _ & _ & Hi & Ho); [set_solver|].
      eexists. cbn [mapM]. rewrite Hl. cbn [mbind res_bind]. rewrite Hls. cbn [mbind res_bind].
      split; [done|]. intros x y. cbn [concat]. rewrite elem_of_app, Hin, elem_of_list_fmap, elem_of_cons.
      setoid_rewrite elem_of_list_filter. setoid_rewrite elem_of_app. setoid_rewrite Hi. setoid_rewrite Ho. split.
      + intros [(u & [= -> ->] & Hlt & ?)|?]; [|naive_solver]. split; [by left|]. split; [lia|]. naive_solver.
      + intros ([->|?] & Hle & ?); [|by right]. left. exists y. split_and!; [done|lia|naive_solver]. }
  destruct (HH (vertices (ed_graph g))) as (ls & Hls & Hin).
  { intros v. by apply ed_vertices. }
  rewrite Hls. cbn [mbind res_bind]. eexists; split; [done|]. intros x y. rewrite Hin, (ed_vertices _ _ Hg).
  split; [naive_solver|]. intros [? [Ha|Ha]]; (split; [|auto]); by apply (darc_vtx g _ _ Hg Ha).
Qed.

(** disj_union: the exact result; [ge] are the pairs [edges()] of the right operand yields. *)
Lemma ed_disj_union_spec g (G : graph) es :
  ed_wf g → edges G = Ok es → (∀ u v, (u, v) ∈ es → u ∈ vertices G ∧ v ∈ vertices G) →
  (∀ v, v ∈ vertices G → (v < 4294967296)%N) →
  (∀ u v, dvtx g u → v ∈ vertices G → (u + 1 + v < 4294967296)%N) →
  ∃ h off, ed_disj_union g G = Ok h ∧ ed_wf h ∧
    (∀ u v, v ∈ vertices G → dvtx g u → (u < off)%N) ∧
    (∀ b, (∀ u, dvtx g u → (u < b)%N) → (∃ v, v ∈ vertices G) → (off <= b)%N) ∧
    (∀ x, dvtx h x ↔ dvtx g x ∨ ∃ v, v ∈ vertices G ∧ x = (v + off)%N) ∧
    (∀ x y, darc h x y ↔ (x <= y)%N ∧ (darc g x y ∨ darc g y x) ∨
        ∃ u v, (u, v) ∈ es ∧ x = (u + off)%N ∧ y = (v + off)%N).
Proof.
  intros Hg HG Hends Hlab Hno.
  set (off := match max_opt (vertices (ed_graph g)) with Some x => u32 (x + 1) | None => 0%N end).
  assert (∀ u v, v ∈ vertices G → dvtx g u → (u < off)%N) as Hoff1.
  { intros u v Hv Hu. pose proof (max_opt_spec (vertices (ed_graph g))) as Hm. unfold off.
    destruct (max_opt _) as [m|].
    - destruct Hm as [Hm Hle]. apply ed_vertices in Hm; [|done].
      specialize (Hle u). rewrite (ed_vertices _ _ Hg) in Hle. specialize (Hle Hu).
      pose proof (Hno m v Hm Hv). rewrite u32_small; lia.
    - exfalso. apply (ed_vertices _ _ Hg) in Hu. rewrite Hm in Hu. set_solver. }
  assert (∀ v, v ∈ vertices G → u32 (v + off) = (v + off)%N) as Hoff2.
  { intros v Hv. apply u32_small. pose proof (max_opt_spec (vertices (ed_graph g))) as Hm. unfold off.
    destruct (max_opt _) as [m|].
    - destruct Hm as [Hm Hle]. apply ed_vertices in Hm; [|done].
      pose proof (Hno m v Hm Hv). rewrite u32_small; lia.
    - rewrite N.add_0_r. eauto. }
  assert (∀ b, (∀ u, dvtx g u → (u < b)%N) → (∃ v, v ∈ vertices G) → (off <= b)%N) as Hoff3.
  { intros b Hb [v Hv]. pose proof (max_opt_spec (vertices (ed_graph g))) as Hm. unfold off.
    destruct (max_opt _) as [m|]; [|lia].
    destruct Hm as [Hm Hle]. apply ed_vertices in Hm; [|done].
    pose proof (Hno m v Hm Hv). specialize (Hb m Hm). rewrite u32_small; lia. }
  destruct (ed_edges_spec g Hg) as (gs & Hgs & Hgin).
  pose proof (dadds_copy (ed_graph g) id gs) as H1.
  pose proof (dadds_copy G (λ v, u32 (v + off)) es) as H2.
  destruct (dadds_new _ _ _ (dadds_seq _ _ _ _ _ _ H1 H2)) as (h & Hok & Hwf & HV & HA).
  exists h, off. split_and!; [|done|done|done| |].
  - unfold ed_disj_union. fold off. rewrite Hgs. cbn [mbind res_bind].
    rewrite !list_fmap_id in Hok.
    replace ((λ e : N * N, (id e.1, id e.2)) <$> gs) with gs in Hok.
    2: { rewrite <- (list_fmap_id gs) at 1. apply list_fmap_ext. by intros ? [? ?]. }
    destruct (ed_add_arcs _ gs) as [r| |]; cbn [mbind res_bind] in Hok |- *; [|done..].
    rewrite HG. cbn [mbind res_bind]. exact Hok.
  - intros x. rewrite HV. unfold id. setoid_rewrite (ed_vertices g _ Hg). split.
    + intros [[(v & ? & ->)|([a b] & [_ He]%Hgin & Hx)]|[(v & ? & ->)|([a b] & He & Hx)]]; cbn in *.
      * by left.
      * left. destruct He as [He|He]; apply (darc_vtx _ _ _ Hg) in He; naive_solver.
      * right. exists v. split; [done|]. by apply Hoff2.
      * right. destruct (Hends a b He) as [Ha Hb]. destruct Hx as [->| ->]; [exists a|exists b]; eauto.
    + intros [?|(v & ? & ->)]; [left; left; eauto|]. right; left. exists v. split; [done|]. by rewrite Hoff2.
  - intros x y. rewrite HA. unfold id. split.
    + intros [([a b] & He%Hgin & -> & ->)|([a b] & He & -> & ->)]; [by left|]. right.
      destruct (Hends a b He) as [Ha Hb]. exists a, b. cbn. rewrite !Hoff2 by done. done.
    + intros [?|(a & b & He & -> & ->)].
      * left. exists (x, y). by rewrite Hgin.
      * right. exists (a, b). destruct (Hends a b He). cbn. rewrite !Hoff2 by done. done.
Qed.

Lemma ed_normalize_spec g :
  ed_wf g →
  ∃ h m, ed_normalize g = Ok (h, m) ∧ ed_wf h ∧
    (∀ i, is_Some (m !! i) ↔ (i < N.of_nat (ed_num_vertices g))%N) ∧
    (∀ u, dvtx g u ↔ ∃ i, m !! i = Some u) ∧
    (∀ i j u v, m !! i = Some u → m !! j = Some v → (i < j)%N → (u < v)%N) ∧
    (∀ i, dvtx h i ↔ (i < N.of_nat (ed_num_vertices g))%N) ∧
    (∀ i j, darc h i j ↔ ∃ u v, m !! i = Some u ∧ m !! j = Some v ∧ (u <= v)%N ∧ (darc g u v ∨ darc g v u)).
Proof.
  intros Hg. unfold ed_normalize.
  set (order := merge_sort N.le (vertices (ed_graph g))).
  assert (order ≡ₚ vertices (ed_graph g)) as Hperm by apply merge_sort_Permutation.
  assert (NoDup order) as Hnd by (rewrite Hperm; apply ed_vertices_nodup).
  assert (Sorted N.le order) as Hsort by (apply Sorted_merge_sort; intros ??; lia).
  assert (length order = ed_num_vertices g) as Hlen.
  { rewrite Hperm. symmetry. apply ed_num_vertices_spec. }
  assert (∀ u, u ∈ order ↔ dvtx g u) as Hin by (intros u; rewrite Hperm; by apply ed_vertices).
  set (m := collect_map (imap (λ i v, (N.of_nat i, v)) order) : gmap N N).
  assert (∀ i v, m !! i = Some v ↔ order !! (N.to_nat i) = Some v) as Hm.
  { intros i v. unfold m. rewrite collect_map_lookup; [apply elem_of_imap_pair|].
    clearbody order. pose proof (imap_fst_of_nat order 0) as Hf.
    cbn [Nat.add] in Hf. rewrite Hf. apply NoDup_fmap_2; [intros ???; lia|]. apply NoDup_seq. }
  set (w := collect_map ((λ kv, (kv.2, kv.1)) <$> map_iter 0 m) : gmap N N).
  assert (∀ i v, w !! v = Some i ↔ m !! i = Some v) as Hw.
  { intros i v. unfold w. rewrite collect_map_lookup.
    - rewrite elem_of_list_fmap. split.
      + intros ([i' v'] & ? & Hi). simplify_eq/=. by apply elem_of_map_iter in Hi.
      + intros Hi. exists (i, v). split; [done|]. by apply elem_of_map_iter.
    - rewrite <- list_fmap_compose.
      apply NoDup_fmap_2_strong; [|apply NoDup_map_iter].
      intros [i1 v1] [i2 v2] H1%elem_of_map_iter H2%elem_of_map_iter ?. simplify_eq/=.
      apply Hm in H1, H2. pose proof (NoDup_lookup _ _ _ _ Hnd H1 H2). f_equal. lia. }
  clearbody m w order.
  assert (∀ i, is_Some (m !! i) ↔ (i < N.of_nat (ed_num_vertices g))%N) as Hdom.
  { intros i. rewrite <- Hlen. split.
    - intros [u Hu]. apply Hm, lookup_lt_Some in Hu. lia.
    - intros Hi. destruct (lookup_lt_is_Some_2 order (N.to_nat i)) as [u Hu]; [lia|].
      exists u. by apply Hm. }
  assert (∀ u, dvtx g u ↔ ∃ i, m !! i = Some u) as Himg.
  { intros u. rewrite <- Hin, elem_of_list_lookup. split.
    - intros [i Hi]. exists (N.of_nat i). apply Hm. by rewrite Nat2N.id.
    - intros [i Hi]. exists (N.to_nat i). by apply Hm. }
  assert (∀ u, dvtx g u → ∃ i, w !! u = Some i ∧ m !! i = Some u) as Hwm.
  { intros u [i Hi]%Himg. exists i. split; [by apply Hw|done]. }
  destruct (ed_edges_spec _ Hg) as (es & Hes & Hes_in).
  assert (dadds (fold_res (λ h u, i ← unwrap (w !! u); Ok (ed_add_vertex h i).1) (vertices (ed_graph g)))
     (λ x, ∃ u, u ∈ vertices (ed_graph g) ∧ w !! u = Some x) (λ _ _, ∃ u, u ∈ vertices (ed_graph g) ∧ False)) as H1.
  { apply (dadds_fold _ _ (λ u x, w !! u = Some x) (λ _ _ _, False)). intros u Hu.
    apply (ed_vertices _ _ Hg), Hwm in Hu as (i & Hi & _). rewrite Hi. cbn.
    eapply dadds_ext; [apply (dadds_vertex i)|done| |done]. intros x. cbv beta. naive_solver. }
  assert (dadds (fold_res (λ h e, i ← unwrap (w !! e.1); j ← unwrap (w !! e.2);
                       r ← ed_add_arc h i j; Ok r.1) es)
     (λ x, ∃ e : N * N, e ∈ es ∧ (w !! e.1 = Some x ∨ w !! e.2 = Some x))
     (λ x y, ∃ e : N * N, e ∈ es ∧ (w !! e.1 = Some x ∧ w !! e.2 = Some y))) as H2.
  { apply (dadds_fold _ _ (λ (e : N * N) x, w !! e.1 = Some x ∨ w !! e.2 = Some x)
       (λ (e : N * N) x y, (w !! e.1 = Some x ∧ w !! e.2 = Some y))).
    intros [u v] [_ He]%Hes_in. cbn [fst snd].
    assert (dvtx g u ∧ dvtx g v) as [Hu Hv].
    { destruct He as [He|He]; apply (darc_vtx _ _ _ Hg) in He; naive_solver. }
    apply Hwm in Hu as (i & Hi & _). apply Hwm in Hv as (j & Hj & _). rewrite Hi, Hj. cbn.
    eapply dadds_ext; [apply (dadds_arc i j)|done| |]; cbv beta; naive_solver. }
  destruct (dadds_new _ _ _ (dadds_seq _ _ _ _ _ _ H1 H2)) as (h & Hok & Hwf & HV & HE).
  exists h, m. split_and!; try done.
  - destruct (fold_res _ (vertices (ed_graph g)) ed_new) as [h0| |]; cbn [mbind res_bind] in Hok |- *; [|done|done].
    rewrite Hes. cbn [mbind res_bind]. rewrite Hok. done.
  - intros i j u v Hi Hj Hij. apply Hm in Hi, Hj. eapply sorted_lookup_lt; [done..|lia].
  - intros i. rewrite HV, <- Hdom. setoid_rewrite Hw. setoid_rewrite (ed_vertices g _ Hg). split.
    + intros [(u & _ & ?)|([u v] & _ & [?|?])]; eauto.
    + intros [u Hu]. left. exists u. split; [|done]. apply Himg. eauto.
  - intros i j. rewrite HE. setoid_rewrite Hw. split.
    + intros [(? & ? & [])|([u v] & He%Hes_in & [? ?])]. eauto 6.
    + intros (u & v & Hu & Hv & He). right. exists (u, v). by rewrite Hes_in.
Qed.

(** ** Neighbourhoods and degree maps *)
Lemma fold_union_spec (f : N → res (list N)) (P : N → N → Prop) (X : list N) : ∀ (acc : gset N),
  (∀ v, v ∈ X → ∃ l, f v = Ok l ∧ ∀ u, u ∈ l ↔ P v u) →
  ∃ S, fold_res (λ acc v, N ← f v; Ok (acc ∪ list_to_set N)) X acc = Ok S ∧
    ∀ u, u ∈ S ↔ u ∈ acc ∨ ∃ v, v ∈ X ∧ P v u.
Proof.
  induction X as [|x X IH]; intros acc HX; cbn.
  - exists acc. set_solver.
  - destruct (HX x) as (l & -> & Hl); [set_solver|]. cbn -[union].
    destruct (IH (acc ∪ list_to_set l)) as (S & HS & Hin).
    { intros v Hv. apply HX. by right. }
    exists S. split; [exact HS|].
    intros u. rewrite Hin, elem_of_union, elem_of_list_to_set, Hl. setoid_rewrite elem_of_cons. naive_solver.
Qed.

Lemma out_neighbourhood_spec g X : ed_wf g → (∀ v, v ∈ X → dvtx g v) →
  ∃ S, out_neighbourhood (ed_digraph g) X = Ok S ∧ ∀ u, u ∈ S ↔ u ∉ X ∧ ∃ v, v ∈ X ∧ darc g v u.
Proof.
  intros Hg HX. unfold out_neighbourhood, collect_set. cbn [out_neighbours ed_digraph].
  destruct (fold_union_spec (ed_out_neighbours g) (darc g) (hash_iter 0 (list_to_set X)) ∅) as (S & -> & HS).
  { intros v. rewrite elem_of_hash_iter, elem_of_list_to_set. intros Hv.
    destruct (ed_out_neighbours_spec g v Hg (HX _ Hv)) as (l & ? & _ & ? & _). eauto. }
  cbn [mbind res_bind]. eexists; split; [done|]. intros u. rewrite elem_of_filter, HS, elem_of_list_to_set.
  setoid_rewrite elem_of_hash_iter. setoid_rewrite elem_of_list_to_set. set_solver.
Qed.
Lemma in_neighbourhood_spec g X : ed_wf g → (∀ v, v ∈ X → dvtx g v) →
  ∃ S, in_neighbourhood (ed_digraph g) X = Ok S ∧ ∀ u, u ∈ S ↔ u ∉ X ∧ ∃ v, v ∈ X ∧ darc g u v.
Proof.
  intros Hg HX. unfold in_neighbourhood, collect_set. cbn [in_neighbours ed_digraph].
  destruct (fold_union_spec (ed_in_neighbours g) (λ v u, darc g u v) (hash_iter 0 (list_to_set X)) ∅) as (S & -> & HS).
  { intros v. rewrite elem_of_hash_iter, elem_of_list_to_set. intros Hv.
    destruct (ed_in_neighbours_spec g v Hg (HX _ Hv)) as (l & ? & _ & ? & _). eauto. }
  cbn [mbind res_bind]. eexists; split; [done|]. intros u. rewrite elem_of_filter, HS, elem_of_list_to_set.
  setoid_rewrite elem_of_hash_iter. setoid_rewrite elem_of_list_to_set. set_solver.
Qed.

Lemma fold_degrees (f : N → res nat) (d : N → nat) vs : ∀ (m : gmap N nat),
  (∀ v, v ∈ vs → f v = Ok (d v)) →
  ∃ m', fold_res (λ m v, x ← f v; Ok (<[v := x]> m)) vs m = Ok m' ∧
    ∀ v k, m' !! v = Some k ↔ (v ∈ vs ∧ k = d v) ∨ (v ∉ vs ∧ m !! v = Some k).
Proof.
  induction vs as [|x vs IH]; intros m Hvs; cbn.
  - exists m. set_solver.
  - rewrite Hvs by set_solver. cbn. destruct (IH (<[x := d x]> m)) as (m' & -> & Hm); [set_solver|].
    exists m'. split; [done|]. intros v k. rewrite Hm, elem_of_cons. clear -HI. destruct (decide (v = x)) as [->|].
    + rewrite lookup_insert. destruct (decide (x ∈ vs)); naive_solver.
    + rewrite lookup_insert_ne by done. naive_solver.
Qed.

(** ** Equality *)
Lemma ed_eq_spec g h : ed_wf g → ed_wf h → ed_eq g h = true ↔ g = h.
Proof.
  intros Hg Hh. unfold ed_eq. split.
  - destruct (ed_num_vertices g =? ed_num_vertices h); [|done]. cbn [negb].
    destruct (ed_num_edges g =? ed_num_edges h); [|done]. cbn [negb].
    case_bool_decide; [|done]. cbn [negb]. rewrite bool_decide_eq_true. intros E.
    apply ed_wf_ext; [done|done| |].
    + intros u. unfold dvtx, ed_contains. by rewrite E.
    + intros u v. unfold darc, ed_has_arc. by rewrite E.
  - intros ->. rewrite !Nat.eqb_refl. cbn [negb]. by rewrite !bool_decide_true.
Qed.

(** ** remove_loops, remove_isolates *)
Lemma ed_remove_arcs_spec l : ∀ g, ed_wf g →
  ∃ g', fold_res (λ h u, r ← ed_remove_arc h u u; Ok r.1) l g = Ok g' ∧ ed_wf g' ∧
    (∀ x, dvtx g' x ↔ dvtx g x) ∧ (∀ x y, darc g' x y ↔ darc g x y ∧ ¬ (x = y ∧ x ∈ l)).
Proof.
  induction l as [|u l IH]; intros g Hg; cbn.
  - exists g. split_and!; [done|done|done|]. set_solver.
  - destruct (ed_remove_arc_spec g u u Hg) as (g1 & -> & Hwf & H1 & H2). cbn.
    destruct (IH g1 Hwf) as (g2 & -> & Hwf2 & H3 & H4). exists g2. split_and!; [done|done| |].
    + intros x. by rewrite H3, H1.
    + intros x y. rewrite H4, H2. set_solver.
Qed.
Lemma ed_remove_loops_spec g : ed_wf g →
  ∃ g' k, ed_remove_loops g = Ok (g', k) ∧ ed_wf g' ∧
    (∀ x, dvtx g' x ↔ dvtx g x) ∧ (∀ x y, darc g' x y ↔ darc g x y ∧ x ≠ y) ∧
    (∃ X : gset N, (∀ x, x ∈ X ↔ darc g x x) ∧ k = size X).
Proof.
  intros Hg. unfold ed_remove_loops.
  set (c := filter (λ u, ed_adjacent g u u = true) (vertices (ed_graph g))).
  assert (∀ x, x ∈ c ↔ darc g x x) as Hc.
  { intros x. unfold c, ed_adjacent. rewrite elem_of_list_filter, ed_vertices, orb_diag by done.
    split; [naive_solver|]. intros Hx. split; [done|]. by apply (darc_vtx g x x). }
  destruct (ed_remove_arcs_spec c g Hg) as (g' & -> & Hwf & H1 & H2). cbn.
  do 2 eexists; split; [done|]. split_and!; [done|done| |].
  - intros x y. rewrite H2, Hc. naive_solver.
  - exists (list_to_set c). split; [intros x; by rewrite elem_of_list_to_set|].
    rewrite size_list_to_set; [done|]. apply NoDup_filter, NoDup_hash_iter.
Qed.
Lemma ed_remove_vertices_fold l : ∀ g, ed_wf g →
  ∃ g', fold_res (λ h u, r ← ed_remove_vertex h u; Ok r.1) l g = Ok g' ∧ ed_wf g' ∧
    (∀ x, dvtx g' x ↔ dvtx g x ∧ x ∉ l) ∧ (∀ x y, darc g' x y ↔ darc g x y ∧ x ∉ l ∧ y ∉ l).
Proof.
  induction l as [|u l IH]; intros g Hg; cbn.
  - exists g. split_and!; [done|done|set_solver|set_solver].
  - destruct (ed_remove_vertex_spec g u Hg) as (g1 & -> & Hwf & H1 & H2). cbn.
    destruct (IH g1 Hwf) as (g2 & -> & Hwf2 & H3 & H4). exists g2. split_and!; [done|done| |].
    + intros x. rewrite H3, H1. set_solver.
    + intros x y. rewrite H4, H2. set_solver.
Qed.
Lemma ed_degree_0 g u : ed_wf g → dvtx g u → ed_degree g u = 0 ↔ ∀ v, ¬ darc g u v ∧ ¬ darc g v u.
Proof.
  intros Hg Hu. destruct (ed_out_neighbours_spec g u Hg Hu) as (lo & _ & _ & Hlo & _ & Ho).
  destruct (ed_in_neighbours_spec g u Hg Hu) as (li & _ & _ & Hli & _ & Hi).
  unfold ed_degree. rewrite Ho, Hi. cbn [default from_option]. split.
  - intros H v. split; intros Ha.
    + apply Hlo in Ha. destruct lo; [set_solver|cbn in *; lia].
    + apply Hli in Ha. destruct li; [set_solver|cbn in *; lia].
  - intros H. destruct lo as [|v lo]; [|exfalso; apply (proj1 (H v)), Hlo; set_solver].
    destruct li as [|v li]; [done|exfalso; apply (proj2 (H v)), Hli; set_solver].
Qed.
Lemma ed_remove_isolates_spec g : ed_wf g →
  ∃ g' k, ed_remove_isolates g = Ok (g', k) ∧ ed_wf g' ∧
    (∀ x, dvtx g' x ↔ dvtx g x ∧ ∃ y, darc g x y ∨ darc g y x) ∧ (∀ x y, darc g' x y ↔ darc g x y) ∧
    (∃ X : gset N, (∀ x, x ∈ X ↔ dvtx g x ∧ ∀ y, ¬ darc g x y ∧ ¬ darc g y x) ∧ k = size X).
Proof.
  intros Hg. unfold ed_remove_isolates.
  set (c := filter (λ u, ed_degree g u = 0) (vertices (ed_graph g))).
  assert (∀ x, x ∈ c ↔ dvtx g x ∧ ∀ y, ¬ darc g x y ∧ ¬ darc g y x) as Hc.
  { intros x. unfold c. rewrite elem_of_list_filter, ed_vertices by done.
    split; intros [? ?]; (split; [done|]) || (split; [|done]);
    by apply (ed_degree_0 g x). }
  assert (∀ x, dvtx g x → (x ∉ c ↔ ∃ y, darc g x y ∨ darc g y x)) as Hnc.
  { intros x Hx. destruct (ed_neighbours_spec g x Hg Hx) as (li & lo & _ & _ & _ & Hi & Ho).
    rewrite Hc. destruct li as [|y l]; [destruct lo as [|y l]|].
    - split; [intros H; destruct H; split; [done|]; intros y; rewrite <- Hi, <- Ho; set_solver|].
      intros [y Hy]. rewrite <- Hi, <- Ho in Hy. set_solver.
    - assert (darc g x y) by (apply Ho; set_solver). naive_solver.
    - assert (darc g y x) by (apply Hi; set_solver). naive_solver. }
  destruct (ed_remove_vertices_fold c g Hg) as (g' & -> & Hwf & H1 & H2). cbn.
  do 2 eexists; split; [done|]. split_and!; [done| | |].
  - intros x. rewrite H1. split; intros [? ?]; split; auto; by apply Hnc.
  - intros x y. rewrite H2. split; [naive_solver|]. intros Hxy. destruct (darc_vtx g x y Hg Hxy).
    split_and!; [done| |]; apply Hnc; eauto.
  - exists (list_to_set c). split; [intros x; by rewrite elem_of_list_to_set|].
    rewrite size_list_to_set; [done|]. apply NoDup_filter, NoDup_hash_iter.
Qed.

End with_iter.

(** ** Generators *)
Lemma ed_path_spec n : (0 < n)%N →
  ∃ h, ed_path n = Ok h ∧ ed_wf h ∧ (∀ x, dvtx h x ↔ (1 < n ∧ x < n)%N) ∧
    (∀ x y, darc h x y ↔ (y = x + 1 ∧ y < n)%N).
Proof.
  intros Hn. unfold ed_path. destruct (N.eqb_spec n 0); [lia|].
  destruct (dadds_new _ _ _ (dadds_arc_fold (λ u, u) (λ u, u + 1)%N (range 0 (n - 1)))) as (h & ? & ? & H1 & H2).
  exists h. split_and!; [done|done| |].
  - intros x. rewrite H1. setoid_rewrite elem_of_range. split.
    + intros (a & ? & ?). lia.
    + intros [? ?]. destruct (N.eq_dec x 0); [exists 0%N; lia|]. exists (x - 1)%N. lia.
  - intros x y. rewrite H2. setoid_rewrite elem_of_range. split; [intros (a & ? & ?); lia|].
    intros [? ?]. exists x. lia.
Qed.
Lemma ed_cycle_spec n :
  ∃ h, ed_cycle n = Ok h ∧ ed_wf h ∧ (∀ x, dvtx h x ↔ (x < n)%N) ∧
    (∀ x y, darc h x y ↔ (x < n ∧ y = (x + 1) mod n)%N).
Proof.
  unfold ed_cycle.
  destruct (dadds_new _ _ _ (dadds_arc_fold (λ u, u) (λ u, (u + 1) mod n)%N (range 0 n))) as (h & ? & ? & H1 & H2).
  exists h. split_and!; [done|done| |].
  - intros x. rewrite H1. setoid_rewrite elem_of_range. split.
    + intros (a & ? & [->| ->]); [lia|]. apply N.mod_lt. lia.
    + intros ?. exists x. lia.
  - intros x y. rewrite H2. setoid_rewrite elem_of_range. split; [intros (a & ? & -> & ->); split; [lia|done]|].
    intros [? ->]. exists x. split_and!; [lia|lia|done|done].
Qed.
Lemma ed_matching_spec n : (2 * n <= 4294967296)%N →
  ∃ h, ed_matching n = Ok h ∧ ed_wf h ∧ (∀ x, dvtx h x ↔ (x < 2 * n)%N) ∧
    (∀ x y, darc h x y ↔ (x < n ∧ y = x + n)%N).
Proof.
  intros Hn. unfold ed_matching.
  destruct (dadds_new _ _ _ (dadds_arc_fold (λ u, u) (λ u, u32 (u + n))%N (range 0 n))) as (h & ? & ? & H1 & H2).
  exists h. split_and!; [done|done| |].
  - intros x. rewrite H1. setoid_rewrite elem_of_range. split.
    + intros (a & ? & [->| ->]); [lia|]. rewrite u32_small; lia.
    + intros ?. destruct (N.lt_ge_cases x n); [exists x; lia|]. exists (x - n)%N.
      rewrite u32_small; lia.
  - intros x y. rewrite H2. setoid_rewrite elem_of_range. split.
    + intros (a & ? & -> & ->). rewrite u32_small; lia.
    + intros [? ->]. exists x. rewrite u32_small; lia.
Qed.
Lemma ed_clique_spec n :
  ∃ h, ed_clique n = Ok h ∧ ed_wf h ∧ (∀ x, dvtx h x ↔ (1 < n ∧ x < n)%N) ∧
    (∀ x y, darc h x y ↔ (x < y ∧ y < n)%N).
Proof.
  unfold ed_clique.
  pose proof (dadds_fold (λ h u, fold_res (λ h v, r ← ed_add_arc h u v; Ok r.1) (range (u + 1) n) h) (range 0 n)
    _ _ (λ u _, dadds_arc_fold (λ _, u) (λ v, v) (range (u + 1) n))) as HA.
  destruct (dadds_new _ _ _ HA) as (h & ? & ? & H1 & H2).
  exists h. split_and!; [done|done| |].
  - intros x. rewrite H1. setoid_rewrite elem_of_range. split.
    + intros (a & ? & b & ? & ?). lia.
    + intros [? ?]. destruct (N.eq_dec x 0).
      * exists 0%N. split; [lia|]. exists 1%N. lia.
      * exists 0%N. split; [lia|]. exists x. lia.
  - intros x y. rewrite H2. setoid_rewrite elem_of_range. split; [intros (a & ? & b & ? & ?); lia|].
    intros [? ?]. exists x. split; [lia|]. exists y. lia.
Qed.
Lemma ed_independent_spec n :
  ed_wf (ed_independent n) ∧ (∀ x, dvtx (ed_independent n) x ↔ (x < n)%N) ∧
  (∀ x y, ¬ darc (ed_independent n) x y).
Proof.
  unfold ed_independent. destruct (dadds_new _ _ _ (dadds_vertices (range 0 n))) as (h & [= <-] & ? & H1 & H2).
  split_and!; [done| |].
  - intros x. rewrite H1, elem_of_range. lia.
  - intros x y. rewrite H2. naive_solver.
Qed.
Lemma ed_biclique_spec s t : (s + t < 4294967296)%N →
  ∃ h, ed_biclique s t = Ok h ∧ ed_wf h ∧ (∀ x, dvtx h x ↔ (0 < s ∧ 0 < t ∧ x < s + t)%N) ∧
    (∀ x y, darc h x y ↔ (x < s ∧ s <= y ∧ y < s + t)%N).
Proof.
  intros Hst. unfold ed_biclique. rewrite u32_small by lia.
  pose proof (dadds_fold (λ h u, fold_res (λ h v, r ← ed_add_arc h u v; Ok r.1) (range s (s + t)) h) (range 0 s)
    _ _ (λ u _, dadds_arc_fold (λ _, u) (λ v, v) (range s (s + t)))) as HA.
  destruct (dadds_new _ _ _ HA) as (h & ? & ? & H1 & H2).
  exists h. split_and!; [done|done| |].
  - intros x. rewrite H1. setoid_rewrite elem_of_range. split.
    + intros (a & ? & b & ? & ?). lia.
    + intros (? & ? & ?). destruct (N.lt_ge_cases x s).
      * exists x. split; [lia|]. exists s. lia.
      * exists 0%N. split; [lia|]. exists x. lia.
  - intros x y. rewrite H2. setoid_rewrite elem_of_range. split; [intros (a & ? & b & ? & ?); lia|].
    intros (? & ? & ?). exists x. split; [lia|]. exists y. lia.
Qed.

(** Code that only adds arcs. *)
Definition darcs (f : editdigraph → res editdigraph) (PE : N → N → Prop) : Prop :=
  dadds f (λ x, ∃ z, PE x z ∨ PE z x) PE.
Lemma darcs_arc u v : darcs (λ h, r ← ed_add_arc h u v; Ok r.1) (λ x y, x = u ∧ y = v).
Proof. eapply dadds_ext; [apply dadds_arc|done| |done]. intros x. cbv beta. naive_solver. Qed.
Lemma darcs_seq f g P Q : darcs f P → darcs g Q → darcs (λ h, f h ≫= g) (λ x y, P x y ∨ Q x y).
Proof.
  intros Hf Hg. eapply dadds_ext; [apply (dadds_seq _ _ _ _ _ _ Hf Hg)|done| |done].
  intros x. cbv beta. naive_solver.
Qed.
Lemma darcs_fold {A} (f : editdigraph → A → res editdigraph) l (P : A → N → N → Prop) :
  (∀ a, a ∈ l → darcs (λ h, f h a) (P a)) → darcs (fold_res f l) (λ x y, ∃ a, a ∈ l ∧ P a x y).
Proof.
  intros Hf. eapply dadds_ext; [apply (dadds_fold _ _ _ _ Hf)|done| |done].
  intros x. cbv beta. naive_solver.
Qed.

Lemma ed_grid_spec s t :
  (s * t < 4294967296)%N →
  ∃ g, ed_grid s t = Ok g ∧ ed_wf g ∧
    (∀ x, dvtx g x ↔ (x < s * t)%N ∧ (s * t ≠ 1)%N) ∧
    (∀ x y, darc g x y ↔ grid_adj s t x y).
Proof.
  intros Hst. unfold ed_grid.
  destruct (N.eqb_spec s 0) as [->|Hs]; cbn [orb].
  { exists ed_new. split_and!; [done|apply ed_new_wf| |].
    - intros x. pose proof (ed_new_v x). split; [done|lia].
    - intros x y. pose proof (ed_new_a x y). split; [done|]. intros (r&c&?&?&_); lia. }
  destruct (N.eqb_spec t 0) as [->|Ht].
  { exists ed_new. split_and!; [done|apply ed_new_wf| |].
    - intros x. pose proof (ed_new_v x). split; [done|lia].
    - intros x y. pose proof (ed_new_a x y). split; [done|]. intros (r&c&?&?&_); lia. }
  assert (∀ r c, r < s → c < t → r * t + c < s * t)%N as Hb by (intros; nia).
  assert (darcs (λ h, h ← fold_res (λ h y,
          h ← fold_res (λ h x,
                let u := u32 (y * t + x) in
                r ← ed_add_arc h u (u32 (u + 1));
                r' ← ed_add_arc r.1 u (u32 (u + t));
                Ok r'.1) (range 0 (t - 1)) h;
          let u := u32 (y * t + t - 1) in
          r ← ed_add_arc h u (u32 (u + t));
          Ok r.1) (range 0 (s - 1)) h;
    fold_res (λ h x,
        let u := u32 ((s - 1) * t + x) in
        r ← ed_add_arc h u (u32 (u + 1));
        Ok r.1) (range 0 (t - 1)) h)
    (λ x z, (∃ y, y ∈ range 0 (s - 1) ∧ ((∃ a, a ∈ range 0 (t - 1) ∧
                 ((x = y * t + a ∧ z = y * t + (a + 1)) ∨ (x = y * t + a ∧ z = (y + 1) * t + a))%N) ∨
                 (x = y * t + (t - 1) ∧ z = (y + 1) * t + (t - 1))%N)) ∨
       (∃ a, a ∈ range 0 (t - 1) ∧ (x = (s - 1) * t + a ∧ z = (s - 1) * t + (a + 1))%N))) as H.
  { apply darcs_seq.
    - apply (darcs_fold _ _ (λ y x z, (∃ a, a ∈ range 0 (t - 1) ∧
                 ((x = y * t + a ∧ z = y * t + (a + 1)) ∨ (x = y * t + a ∧ z = (y + 1) * t + a))%N) ∨
                 (x = y * t + (t - 1) ∧ z = (y + 1) * t + (t - 1))%N)).
      intros y Hy%elem_of_range. apply (darcs_seq (fold_res _ (range 0 (t - 1)))).
      + apply (darcs_fold _ _ (λ a x z, (x = y * t + a ∧ z = y * t + (a + 1)) ∨ (x = y * t + a ∧ z = (y + 1) * t + a))%N).
        intros a Ha%elem_of_range.
        assert (y * t + a < s * t)%N by (apply Hb; lia).
        assert (y * t + (a + 1) < s * t)%N by (apply Hb; lia).
        assert ((y + 1) * t + a < s * t)%N by (apply Hb; lia).
        rewrite (u32_small (y * t + a)) by lia. cbv zeta.
        rewrite (u32_small (y * t + a + 1)) by lia.
        rewrite (u32_small (y * t + a + t)) by lia.
        replace (y * t + a + 1)%N with (y * t + (a + 1))%N by lia.
        replace (y * t + a + t)%N with ((y + 1) * t + a)%N by lia.
        eapply dadds_ext; [apply (darcs_seq _ _ _ _ (darcs_arc (y * t + a) (y * t + (a + 1)))
                   (darcs_arc (y * t + a) ((y + 1) * t + a)))| |done|done].
        intros h. cbv beta. by destruct (ed_add_arc h (y * t + a) (y * t + (a + 1))) as [[]| |].
      + assert (y * t + (t - 1) < s * t)%N by (apply Hb; lia).
        assert ((y + 1) * t + (t - 1) < s * t)%N by (apply Hb; lia).
        rewrite (u32_small (y * t + t - 1)) by lia. cbv zeta.
        rewrite (u32_small (y * t + t - 1 + t)) by lia.
        replace (y * t + t - 1)%N with (y * t + (t - 1))%N by lia.
        replace (y * t + (t - 1) + t)%N with ((y + 1) * t + (t - 1))%N by lia.
        apply darcs_arc.
    - apply (darcs_fold _ _ (λ a x z, x = (s - 1) * t + a ∧ z = (s - 1) * t + (a + 1))%N).
      intros a Ha%elem_of_range.
      assert ((s - 1) * t + a < s * t)%N by (apply Hb; lia).
      assert ((s - 1) * t + (a + 1) < s * t)%N by (apply Hb; lia).
      rewrite (u32_small ((s - 1) * t + a)) by lia. cbv zeta.
      rewrite (u32_small ((s - 1) * t + a + 1)) by lia.
      replace ((s - 1) * t + a + 1)%N with ((s - 1) * t + (a + 1))%N by lia.
      apply darcs_arc. }
  set (P := λ x z : N, _) in H.
  assert (∀ x z, P x z ↔ grid_adj s t x z) as Hg.
  { intros x z. unfold P, grid_adj. setoid_rewrite elem_of_range. split.
    - intros [(y & ? & [(a & ? & [[-> ->]|[-> ->]])|[-> ->]])|(a & ? & [-> ->])].
      + exists y, a. split_and!; [lia..|]. left. split; [lia|lia].
      + exists y, a. split_and!; [lia..|]. right. split; [lia|lia].
      + exists y, (t - 1)%N. split_and!; [lia..|]. right. split; [lia|lia].
      + exists (s - 1)%N, a. split_and!; [lia..|]. left. split; [lia|lia].
    - intros (r & c & ? & ? & -> & [[-> ?]|[-> ?]]).
      + destruct (decide (r = s - 1)%N) as [->|].
        * right. exists c. split; [lia|]. lia.
        * left. exists r. split; [lia|]. left. exists c. split; [lia|]. left. lia.
      + left. exists r. split; [lia|]. destruct (decide (c = t - 1)%N) as [->|].
        * right. lia.
        * left. exists c. split; [lia|]. right. lia. }
  clearbody P. destruct (dadds_new _ _ _ H) as (h & Hok & Hwf & HV & HE).
  exists h. split_and!; [exact Hok|done| |].
  - intros x. rewrite HV. setoid_rewrite Hg. split.
    + intros (z & [(r & c & ? & ? & -> & [[-> ?]|[-> ?]])|(r & c & ? & ? & -> & [[-> ?]|[-> ?]])]); nia.
    + intros [Hx Hne]. set (r := (x / t)%N). set (c := (x mod t)%N).
      assert (x = r * t + c)%N as Hxe by (unfold r, c; rewrite (N.mul_comm _ t); apply N.div_mod; lia).
      assert (c < t)%N as Hc by (apply N.mod_lt; lia).
      assert (r < s)%N as Hr by (unfold r; apply N.div_lt_upper_bound; lia).
      clearbody r c.
      destruct (decide (c + 1 < t)%N).
      { exists (r * t + (c + 1))%N. left. exists r, c. split_and!; [lia..|]. left. lia. }
      destruct (decide (0 < c)%N).
      { exists (r * t + (c - 1))%N. right. exists r, (c - 1)%N. split_and!; [lia..|]. left. lia. }
      destruct (decide (r + 1 < s)%N).
      { exists ((r + 1) * t + c)%N. left. exists r, c. split_and!; [lia..|]. right. lia. }
      destruct (decide (0 < r)%N).
      { exists ((r - 1) * t + c)%N. right. exists (r - 1)%N, c. split_and!; [lia..|]. right.
        replace (r - 1 + 1)%N with r by lia. lia. }
      exfalso. assert (t = 1)%N by lia. assert (s = 1)%N by lia. subst. lia.
  - intros x y. by rewrite HE, Hg.
Qed.
