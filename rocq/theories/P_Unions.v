(** Proofs about [disj_union], [disj_unions] and [normalize] of EditGraph. *)
From Verif Require Import Base Spec M_Graph M_Iterators M_EditGraph S_Graph S_Multi
  P_EditGraph P_EditGraph2 P_Graph P_Iterators P_Adds P_Generators.

(** ** Edge counts of isomorphic and disjoint pieces *)
Section counts.
Implicit Types G H : graph.

Lemma num_edges_inj G H (φ : N → N) :
  graph_wf G → graph_wf H →
  (∀ u v, vtx G u → vtx G v → φ u = φ v → u = v) →
  (∀ x y, adj H x y ↔ ∃ u v, x = φ u ∧ y = φ v ∧ adj G u v) →
  num_edges H = num_edges G.
Proof.
  intros HG HH Hinj Hadj.
  destruct (wf_num_edges _ HG) as (E & HE & ->). destruct (wf_num_edges _ HH) as (F & HF & ->).
  symmetry. apply (size_filter_bij E F (λ e, upair (φ e.1) (φ e.2))).
  - intros [a b] [c d]. rewrite !HE. intros [Hab Aab] [Hcd Acd]. cbn. intros Heq.
    pose proof (wf_adj_vtx _ HG _ _ Aab). pose proof (wf_adj_vtx _ HG _ _ (wf_adj_sym _ HG _ _ Aab)).
    pose proof (wf_adj_vtx _ HG _ _ Acd). pose proof (wf_adj_vtx _ HG _ _ (wf_adj_sym _ HG _ _ Acd)).
    apply upair_inj in Heq as [[H4 H5]|[H4 H5]]; apply Hinj in H4; try done; apply Hinj in H5; try done; subst; [done|].
    assert (c = d) as -> by lia. done.
  - intros [x y]. rewrite HF, Hadj. split.
    + intros (Hle & u & v & -> & -> & Huv). destruct (N.le_gt_cases u v).
      * exists (u, v). rewrite HE. split; [done|]. cbn. by rewrite upair_le_id.
      * exists (v, u). rewrite HE. split; [split; [lia|by apply (wf_adj_sym _ HG)]|]. cbn.
        by rewrite upair_comm, upair_le_id.
    + intros ([u v] & [Hle Huv]%HE & Hxy). cbn in Hxy. unfold upair in Hxy.
      destruct (N.leb_spec (φ u) (φ v)); simplify_eq.
      * split; [done|eauto].
      * split; [lia|]. exists v, u. split_and!; [done|done|by apply (wf_adj_sym _ HG)].
Qed.

Lemma num_edges_disj G1 G2 H :
  graph_wf G1 → graph_wf G2 → graph_wf H →
  (∀ x y, adj G1 x y → adj G2 x y → False) →
  (∀ x y, adj H x y ↔ adj G1 x y ∨ adj G2 x y) →
  num_edges H = num_edges G1 + num_edges G2.
Proof.
  intros H1 H2 HH Hd Hadj.
  destruct (wf_num_edges _ H1) as (E & HE & ->). destruct (wf_num_edges _ H2) as (F & HF & ->).
  destruct (wf_num_edges _ HH) as (D & HD & ->).
  rewrite <- size_union; [|intros [x y] [? ?]%HE [? ?]%HF; eauto].
  f_equal. apply set_eq. intros [x y]. rewrite elem_of_union, HD, HE, HF, Hadj. naive_solver.
Qed.

End counts.

Section with_iter.
Context `{HI : HashIter}.

Lemma max_opt_spec l :
  match max_opt l with
  | Some m => m ∈ l ∧ ∀ x, x ∈ l → (x <= m)%N
  | None => l = []
  end.
Proof.
  unfold max_opt. induction l as [|x l IH] using rev_ind; [done|].
  rewrite foldl_app. cbn. set (o := foldl _ None l) in *. clearbody o. destruct o as [m|].
  - destruct IH as [Hm Hle]. split.
    + destruct (N.max_spec m x) as [[? ->]|[? ->]]; set_solver.
    + intros y. rewrite elem_of_app, elem_of_list_singleton. intros [Hy| ->]; [specialize (Hle _ Hy); lia|lia].
  - subst. cbn. split; [set_solver|]. intros y. rewrite elem_of_list_singleton. lia.
Qed.

Lemma adds_copy (G : graph) (f : N → N) (es : list (N * N)) :
  adds (λ h, r ← eg_add_edges (eg_add_vertices h (f <$> vertices G)).1 ((λ e : N * N, (f e.1, f e.2)) <$> es); Ok r.1)
    (λ x, (∃ v, v ∈ vertices G ∧ x = f v) ∨ ∃ e, e ∈ es ∧ (x = f e.1 ∨ x = f e.2))
    (λ x y, ∃ e, e ∈ es ∧ ((x = f e.1 ∧ y = f e.2) ∨ (x = f e.2 ∧ y = f e.1))).
Proof.
  eapply adds_ext; [apply (adds_seq _ _ _ _ _ _ (adds_add_vertices (f <$> vertices G))
     (adds_add_edges ((λ e : N * N, (f e.1, f e.2)) <$> es)))|done| |].
  - intros x. cbv beta. setoid_rewrite elem_of_list_fmap. split.
    + intros [(v & -> & Hv)|(e & (e' & -> & ?) & [->| ->])]; cbn; eauto 10.
    + intros [(v & Hv & ->)|(e & He & [->| ->])]; [eauto|right..]; eexists; (split; [eexists; split; [reflexivity|exact He]|]); cbn; auto.
  - intros x y. cbv beta. setoid_rewrite elem_of_list_fmap. split.
    + intros [[]|(e & (e' & -> & ?) & He)]. cbn in He. exists e'. naive_solver.
    + intros (e & He & Hxy). right. eexists. split; [eexists; split; [reflexivity|exact He]|]. cbn. naive_solver.
Qed.

(** What a [disj_union] call produces, with the offset it uses. *)
Lemma eg_disj_union_weak g G :
  eg_wf g → weak_wf G →
  (∀ v, vtx G v → (v < 4294967296)%N) →
  (∀ u v, ev g u → vtx G v → (u + 1 + v < 4294967296)%N) →
  ∃ h off, eg_disj_union g G = Ok h ∧ eg_wf h ∧
    (∀ u v, vtx G v → ev g u → (u < off)%N) ∧
    (∀ b, (∀ u, ev g u → (u < b)%N) → (∃ v, vtx G v) → (off <= b)%N) ∧
    (∀ x, ev h x ↔ ev g x ∨ ∃ v, vtx G v ∧ x = (v + off)%N) ∧
    (∀ x y, ea h x y ↔ ea g x y ∨ ∃ u v, adj G u v ∧ x = (u + off)%N ∧ y = (v + off)%N).
Proof.
  intros Hg HG Hlab Hno.
  pose proof (eg_graph_wf g Hg) as Hgg.
  set (off := match max_opt (vertices (eg_graph g)) with Some x => u32 (x + 1) | None => 0%N end).
  assert (∀ u v, vtx G v → ev g u → (u < off)%N) as Hoff1.
  { intros u v Hv Hu. pose proof (max_opt_spec (vertices (eg_graph g))) as Hm. unfold off.
    destruct (max_opt _) as [m|].
    - destruct Hm as [Hm Hle]. apply eg_vertices in Hm; [|done].
      specialize (Hle u). rewrite (eg_vertices _ _ Hg) in Hle. specialize (Hle Hu).
      pose proof (Hno m v Hm Hv). rewrite u32_small; lia.
    - exfalso. apply (eg_vertices _ _ Hg) in Hu. rewrite Hm in Hu. set_solver. }
  assert (∀ v, vtx G v → u32 (v + off) = (v + off)%N) as Hoff2.
  { intros v Hv. apply u32_small. pose proof (max_opt_spec (vertices (eg_graph g))) as Hm. unfold off.
    destruct (max_opt _) as [m|].
    - destruct Hm as [Hm Hle]. apply eg_vertices in Hm; [|done].
      pose proof (Hno m v Hm Hv). rewrite u32_small; lia.
    - rewrite N.add_0_r. eauto. }
  assert (∀ b, (∀ u, ev g u → (u < b)%N) → (∃ v, vtx G v) → (off <= b)%N) as Hoff3.
  { intros b Hb [v Hv]. pose proof (max_opt_spec (vertices (eg_graph g))) as Hm. unfold off.
    destruct (max_opt _) as [m|]; [|lia].
    destruct Hm as [Hm Hle]. apply eg_vertices in Hm; [|done].
    pose proof (Hno m v Hm Hv). rewrite u32_small by lia. specialize (Hb _ Hm). lia. }
  unfold eg_disj_union. fold off. clearbody off.
  destruct (edges_spec _ Hgg) as (es & Hes & _ & Hes_in & _). rewrite Hes. cbn [mbind res_bind].
  destruct (edges_weak _ HG) as (es' & Hes' & Hes_in').
  pose proof (adds_seq _ _ _ _ _ _ (adds_copy (eg_graph g) (λ v, v) es) (adds_copy G (λ v, u32 (v + off)) es')) as H.
  apply adds_new in H as (h & Hok & Hwf & HV & HE).
  assert (∀ x y, ea g x y → ev g x ∧ ev g y) as Hgv.
  { intros x y Hxy. split; [by eapply ea_ev|]. eapply ea_ev, ea_sym; done. }
  assert (∀ x y, adj G x y → vtx G x ∧ vtx G y) as HGv.
  { intros x y Hxy. split; [by eapply ww_adj_vtx|]. eapply ww_adj_vtx, ww_adj_sym; done. }
  assert (∀ x, ev h x ↔ ev g x ∨ ∃ v, vtx G v ∧ x = (v + off)%N) as HV'.
  { intros x. rewrite HV. setoid_rewrite (ww_vertices _ HG). setoid_rewrite (eg_vertices g _ Hg). split.
    - intros [[(v & Hv & ->)|([u v] & [_ He]%Hes_in & Hx)]|[(v & Hv & ->)|([u v] & [_ He]%Hes_in' & Hx)]].
      + by left.
      + left. destruct (Hgv _ _ He). by destruct Hx as [->| ->].
      + right. exists v. split; [done|]. auto.
      + right. destruct (HGv _ _ He). destruct Hx as [->| ->]; cbn; rewrite Hoff2 by done; eauto.
    - intros [Hx|(v & Hv & ->)]; [left; left; eauto|]. right; left. exists v. split; [done|].
      symmetry; auto. }
  assert (∀ x y, ea h x y ↔ ea g x y ∨ ∃ u v, adj G u v ∧ x = (u + off)%N ∧ y = (v + off)%N) as HE'.
  { intros x y. rewrite HE. split.
    - intros [([u v] & [_ He]%Hes_in & Hxy)|([u v] & [_ He]%Hes_in' & Hxy)]; cbn in Hxy.
      + left. destruct Hxy as [[-> ->]|[-> ->]]; [done|]. by apply ea_sym.
      + right. destruct (HGv _ _ He) as [Hu Hv]. rewrite !Hoff2 in Hxy by done.
        destruct Hxy as [[-> ->]|[-> ->]]; [by eauto|].
        exists v, u. split_and!; [|done|done]. by apply (ww_adj_sym _ HG).
    - intros [Hxy|(u & v & Huv & -> & ->)].
      + left. destruct (N.le_gt_cases x y).
        * exists (x, y). rewrite Hes_in. split; [done|auto].
        * exists (y, x). rewrite Hes_in. split; [split; [lia|by apply ea_sym]|auto].
      + right. destruct (HGv _ _ Huv) as [Hu Hv]. destruct (N.le_gt_cases u v).
        * exists (u, v). rewrite Hes_in'. split; [done|]. cbn. rewrite !Hoff2 by done. auto.
        * exists (v, u). rewrite Hes_in'. split; [split; [lia|by apply (ww_adj_sym _ HG)]|].
          cbn. rewrite !Hoff2 by done. auto. }
  exists h, off. split; [|split_and!].
  { rewrite <- Hok. rewrite list_fmap_id.
    replace ((λ e : N * N, (e.1, e.2)) <$> es) with es.
    2: { rewrite <- (list_fmap_id es) at 1. apply list_fmap_ext. by intros ? []. }
    destruct (eg_add_edges (eg_add_vertices eg_new (vertices (eg_graph g))).1 es) as [[h1 n1]| |]; cbn [mbind res_bind]; [|done|done].
    rewrite Hes'. done. }
  { done. }
  { done. }
  { done. }
  - intros. apply HV'.
  - intros. apply HE'.
Qed.

Lemma eg_disj_union_spec g G :
  eg_wf g → graph_wf G →
  (∀ v, vtx G v → (v < 4294967296)%N) →
  (∀ u v, ev g u → vtx G v → (u + 1 + v < 4294967296)%N) →
  ∃ h off, eg_disj_union g G = Ok h ∧ eg_wf h ∧
    (∀ u v, vtx G v → ev g u → (u < off)%N) ∧
    (∀ b, (∀ u, ev g u → (u < b)%N) → (∃ v, vtx G v) → (off <= b)%N) ∧
    (∀ x, ev h x ↔ ev g x ∨ ∃ v, vtx G v ∧ x = (v + off)%N) ∧
    (∀ x y, ea h x y ↔ ea g x y ∨ ∃ u v, adj G u v ∧ x = (u + off)%N ∧ y = (v + off)%N) ∧
    eg_num_vertices h = eg_num_vertices g + num_vertices G ∧
    eg_num_edges h = eg_num_edges g + num_edges G.
Proof.
  intros Hg HG Hlab Hno. destruct (eg_disj_union_weak g G Hg HG Hlab Hno) as (h & off & Hok & Hwf & Hoff1 & Hoff3 & HV' & HE').
  pose proof (eg_graph_wf g Hg) as Hgg.
  assert (∀ x y, ea g x y → ev g x ∧ ev g y) as Hgv.
  { intros x y Hxy. split; [by eapply ea_ev|]. eapply ea_ev, ea_sym; done. }
  assert (∀ x y, adj G x y → vtx G x ∧ vtx G y) as HGv.
  { intros x y Hxy. split; [by eapply wf_adj_vtx|]. eapply wf_adj_vtx, wf_adj_sym; done. }
  exists h, off. split_and!; [done..| |].
  - pose proof (eg_graph_wf h Hwf) as Hhh.
    rewrite (wf_num_vertices _ HG).
    change (eg_num_vertices h) with (num_vertices (eg_graph h)).
    change (eg_num_vertices g) with (num_vertices (eg_graph g)).
    rewrite (wf_num_vertices _ Hhh), (wf_num_vertices _ Hgg).
    rewrite <- (fmap_length (λ v, v + off)%N (vertices G)), <- app_length.
    apply Permutation_length, NoDup_Permutation; [apply Hhh| |].
    + apply NoDup_app. split_and!; [apply Hgg| |].
      * intros x Hx (v & -> & Hv)%elem_of_list_fmap. apply (eg_vertices _ _ Hg) in Hx.
        apply (wf_vertices _ HG) in Hv. specialize (Hoff1 _ _ Hv Hx). lia.
      * apply NoDup_fmap_2; [intros ?? ?; lia|]. apply HG.
    + intros x. rewrite elem_of_app, (eg_vertices _ _ Hwf), (eg_vertices _ _ Hg), elem_of_list_fmap, HV'.
      setoid_rewrite (wf_vertices _ HG). naive_solver.
  - change (eg_num_edges h) with (num_edges (eg_graph h)).
    change (eg_num_edges g) with (num_edges (eg_graph g)).
    destruct (wf_num_edges _ (eg_graph_wf h Hwf)) as (D & HD & ->).
    destruct (wf_num_edges _ Hgg) as (E & HE1 & ->). destruct (wf_num_edges _ HG) as (F & HF & ->).
    rewrite (size_filter_bij F (set_map (λ e : N * N, (e.1 + off, e.2 + off)%N) F) (λ e, (e.1 + off, e.2 + off)%N)).
    2: { intros [a b] [c d] _ _ ?. simplify_eq/=. f_equal; lia. }
    2: { intros e. rewrite elem_of_map. naive_solver. }
    rewrite <- size_union.
    + f_equal. apply set_eq. intros [x y]. rewrite HD, elem_of_union, HE1.
      change (adj (eg_graph h) x y) with (ea h x y). rewrite HE', elem_of_map.
      change (adj (eg_graph g) x y) with (ea g x y). split.
      * intros (Hle & [?|(u & v & Huv & -> & ->)]); [by left|]. right. exists (u, v).
        rewrite HF. split; [done|]. split; [lia|done].
      * intros [?|([u v] & Hx & [Hle Huv]%HF)]; [naive_solver|]. simplify_eq/=.
        split; [lia|]. right. eauto.
    + intros [x y] [_ Hxy]%HE1 ([u v] & Hx & [_ Huv]%HF)%elem_of_map. simplify_eq/=.
      destruct (Hgv _ _ Hxy) as [Hxv _]. destruct (HGv _ _ Huv) as [Huv' _].
      specialize (Hoff1 _ _ Huv' Hxv). lia.
Qed.

(** [disj_unions]: the i-th graph is embedded with its own offset. *)
Lemma eg_disj_unions_gen Gs : ∀ (bs : list N) g b0,
  eg_wf g → (∀ u, ev g u → (u < b0)%N) →
  Forall2 (λ G b, graph_wf G ∧ ∀ v, vtx G v → (v < b)%N) Gs bs →
  (b0 + sumN bs <= 4294967296)%N →
  ∃ h offs, fold_res eg_disj_union Gs g = Ok h ∧ eg_wf h ∧ length offs = length Gs ∧
    (∀ i off G v u, offs !! i = Some off → Gs !! i = Some G → vtx G v → ev g u → (u < off)%N) ∧
    (∀ i j offi offj Gi Gj u v, i < j → offs !! i = Some offi → offs !! j = Some offj →
        Gs !! i = Some Gi → Gs !! j = Some Gj → vtx Gi u → vtx Gj v → (u + offi < offj)%N) ∧
    (∀ x, ev h x ↔ ev g x ∨ ∃ i G off v, Gs !! i = Some G ∧ offs !! i = Some off ∧ vtx G v ∧ x = (v + off)%N) ∧
    (∀ x y, ea h x y ↔ ea g x y ∨ ∃ i G off u v, Gs !! i = Some G ∧ offs !! i = Some off ∧ adj G u v ∧
               x = (u + off)%N ∧ y = (v + off)%N) ∧
    eg_num_vertices h = eg_num_vertices g + sum_map num_vertices Gs ∧
    eg_num_edges h = eg_num_edges g + sum_map num_edges Gs.
Proof.
  induction Gs as [|G Gs IH]; intros bs g b0 Hg Hb HF Hsum.
  { exists g, []. cbn. split_and!; try done.
    - intros x. split; [auto|]. intros [?|(i & ? & ? & ? & ? & _)]; [done|]. done.
    - intros x y. split; [auto|]. intros [?|(i & ? & ? & ? & ? & ? & _)]; [done|]. done. }
  apply Forall2_cons_inv_l in HF as (b & bs' & [HG Hvb] & HF & ->).
  change (sumN (b :: bs')) with (b + sumN bs')%N in Hsum.
  destruct (eg_disj_union_spec g G Hg HG) as (g1 & off & Hu & Hg1 & Hoff & Hmin & HV & HE & Hn & Hm).
  { intros v Hv. specialize (Hvb _ Hv). lia. }
  { intros u v Hu Hv. specialize (Hb _ Hu). specialize (Hvb _ Hv). lia. }
  assert (∀ u, ev g1 u → (u < b0 + b)%N) as Hb1.
  { intros u. rewrite HV. intros [Hu'|(v & Hv & ->)]; [specialize (Hb _ Hu'); lia|].
    pose proof (Hmin b0 Hb (ex_intro _ v Hv)). specialize (Hvb _ Hv). lia. }
  destruct (IH bs' g1 (b0 + b)%N Hg1 Hb1 HF) as (h & offs & Hr & Hwf & Hlen & H1 & H2 & H3 & H4 & H5 & H6); [lia|].
  exists h, (off :: offs). cbn [fold_res]. rewrite Hu. cbn [mbind res_bind].
  split_and!; try done.
  - cbn. by rewrite Hlen.
  - intros [|i] o G' v u; cbn; intros.
    + simplify_eq. eauto.
    + eapply H1; [done..|]. apply HV. by left.
  - intros i j oi oj Gi Gj u v Hij Hoi Hoj Hi Hj Hui Hvj. destruct j as [|j]; [lia|]. destruct i as [|i]; cbn in *.
    + simplify_eq. eapply H1; [done..|]. apply HV. right. eauto.
    + eapply H2; [|done..]. lia.
  - intros x. rewrite H3, HV. split.
    + intros [[?|(v & ? & ->)]|(i & ? & ? & ? & ? & ? & ? & ?)]; [by left|right|right].
      * exists 0, G, off, v. done.
      * exists (S i). cbn. eauto 10.
    + intros [?|([|i] & ? & ? & ? & ? & ? & ? & ?)]; cbn in *; simplify_eq; eauto 10.
  - intros x y. rewrite H4, HE. split.
    + intros [[?|(u & v & ? & -> & ->)]|(i & ? & ? & ? & ? & ? & ? & ? & ?)]; [by left|right|right].
      * exists 0, G, off, u, v. done.
      * exists (S i). cbn. eauto 10.
    + intros [?|([|i] & ? & ? & ? & ? & ? & ? & ? & ? & ?)]; cbn in *; simplify_eq; eauto 12.
  - rewrite H5, Hn. unfold sum_map. cbn. lia.
  - rewrite H6, Hm. unfold sum_map. cbn. lia.
Qed.

(** ** normalize *)
Lemma collect_map_lookup_snoc {K A} `{Countable K} (l : list (K * A)) k v :
  collect_map (l ++ [(k, v)]) = <[k := v]> (collect_map l).
Proof. unfold collect_map. by rewrite foldl_app. Qed.

Lemma collect_map_lookup {K A} `{Countable K} (l : list (K * A)) k v :
  NoDup l.*1 → collect_map l !! k = Some v ↔ (k, v) ∈ l.
Proof.
  induction l as [|[k' v'] l IH] using rev_ind; intros Hnd.
  - cbn. rewrite lookup_empty. split; [done|set_solver].
  - rewrite fmap_app in Hnd. apply NoDup_app in Hnd as (Hnd & Hdis & _). cbn in Hdis.
    rewrite collect_map_lookup_snoc, elem_of_app, <- IH by done.
    destruct (decide (k = k')) as [->|Hne].
    + rewrite lookup_insert. split.
      * intros [= ->]. right. set_solver.
      * intros [Hl|Hl%elem_of_list_singleton]; [|by simplify_eq].
        exfalso. apply IH in Hl; [|done]. apply (Hdis k'); [|set_solver].
        apply elem_of_list_fmap. by exists (k', v).
    + rewrite lookup_insert_ne by done. split; [auto|].
      intros [?|?%elem_of_list_singleton]; naive_solver.
Qed.

Lemma imap_fst_of_nat {A} (l : list A) s :
  (imap (λ i v, (N.of_nat (s + i), v)) l).*1 = N.of_nat <$> seq s (length l).
Proof.
  revert s. induction l as [|x l IH]; intros s; [done|].
  cbn. rewrite Nat.add_0_r. f_equal. rewrite <- IH. f_equal. apply imap_ext. intros. cbn. repeat f_equal. lia.
Qed.

Lemma elem_of_imap_pair {A} (l : list A) (i : N) v :
  (i, v) ∈ imap (λ i v, (N.of_nat i, v)) l ↔ l !! (N.to_nat i) = Some v.
Proof.
  rewrite elem_of_list_lookup. setoid_rewrite list_lookup_imap. split.
  - intros (j & Hj). destruct (l !! j) eqn:E; cbn in Hj; simplify_eq. by rewrite Nat2N.id.
  - intros Hl. exists (N.to_nat i). rewrite Hl. cbn. by rewrite N2Nat.id.
Qed.

Lemma sorted_lookup_lt (l : list N) i j x y :
  Sorted N.le l → NoDup l → l !! i = Some x → l !! j = Some y → i < j → (x < y)%N.
Proof.
  intros Hs Hnd Hi Hj Hij. apply Sorted_StronglySorted in Hs; [|intros ???; lia].
  assert (x ≠ y) by (intros ->; pose proof (NoDup_lookup _ _ _ _ Hnd Hi Hj); lia).
  enough (x <= y)%N by lia. clear Hnd. revert i j Hi Hj Hij.
  induction Hs as [|a l Hs IH HF]; intros i j Hi Hj Hij; [done|].
  destruct j as [|j]; [lia|]. cbn in Hj. destruct i as [|i]; cbn in Hi.
  - simplify_eq. rewrite Forall_forall in HF. apply HF. by eapply elem_of_list_lookup_2.
  - eapply IH; [done..|lia].
Qed.

Lemma eg_normalize_spec g :
  eg_wf g →
  ∃ h m, eg_normalize g = Ok (h, m) ∧ eg_wf h ∧
    (∀ i, is_Some (m !! i) ↔ (i < N.of_nat (eg_num_vertices g))%N) ∧
    (∀ u, ev g u ↔ ∃ i, m !! i = Some u) ∧
    (∀ i j u v, m !! i = Some u → m !! j = Some v → (i < j)%N → (u < v)%N) ∧
    (∀ i, ev h i ↔ (i < N.of_nat (eg_num_vertices g))%N) ∧
    (∀ i j, ea h i j ↔ ∃ u v, m !! i = Some u ∧ m !! j = Some v ∧ ea g u v) ∧
    eg_num_edges h = eg_num_edges g.
Proof.
  intros Hg. pose proof (eg_graph_wf g Hg) as Hgg. unfold eg_normalize.
  set (order := merge_sort N.le (vertices (eg_graph g))).
  assert (order ≡ₚ vertices (eg_graph g)) as Hperm by apply merge_sort_Permutation.
  assert (NoDup order) as Hnd by (rewrite Hperm; apply Hgg).
  assert (Sorted N.le order) as Hsort by (apply Sorted_merge_sort; intros ??; lia).
  assert (length order = eg_num_vertices g) as Hlen.
  { rewrite Hperm. symmetry. apply (wf_num_vertices _ Hgg). }
  assert (∀ u, u ∈ order ↔ ev g u) as Hin by (intros u; rewrite Hperm; by apply eg_vertices).
  set (m := collect_map (imap (λ i v, (N.of_nat i, v)) order) : gmap N N).
  assert (∀ i v, m !! i = Some v ↔ order !! (N.to_nat i) = Some v) as Hm.
  { intros i v. unfold m. rewrite collect_map_lookup; [apply elem_of_imap_pair|].
    clearbody order. pose proof (imap_fst_of_nat order 0) as Hf.
    cbn [Nat.add] in Hf. rewrite Hf. apply NoDup_fmap_2; [intros ???; lia|]. apply NoDup_seq. }
  set (w := collect_map ((λ kv, (kv.2, kv.1)) <$> map_iter 0 m) : gmap N N).
  assert (∀ i v, w !! v = Some i ↔ m !! i = Some v) as Hw.
  { intros i v. unfold w. rewrite collect_map_lookup.
    - rewrite elem_of_list_fmap. split.
      + intros ([i' v'] & ? & Hi). simplify_eq/=. by apply elem_of_map_iter in Hi.
      + intros Hi. exists (i, v). split; [done|]. by apply elem_of_map_iter.
    - rewrite <- list_fmap_compose.
      apply NoDup_fmap_2_strong; [|apply NoDup_map_iter].
      intros [i1 v1] [i2 v2] H1%elem_of_map_iter H2%elem_of_map_iter ?. simplify_eq/=.
      apply Hm in H1, H2. pose proof (NoDup_lookup _ _ _ _ Hnd H1 H2). f_equal. lia. }
  clearbody m w order.
  assert (∀ i, is_Some (m !! i) ↔ (i < N.of_nat (eg_num_vertices g))%N) as Hdom.
  { intros i. rewrite <- Hlen. split.
    - intros [u Hu]. apply Hm, lookup_lt_Some in Hu. lia.
    - intros Hi. destruct (lookup_lt_is_Some_2 order (N.to_nat i)) as [u Hu]; [lia|].
      exists u. by apply Hm. }
  assert (∀ u, ev g u ↔ ∃ i, m !! i = Some u) as Himg.
  { intros u. rewrite <- Hin, elem_of_list_lookup. split.
    - intros [i Hi]. exists (N.of_nat i). apply Hm. by rewrite Nat2N.id.
    - intros [i Hi]. exists (N.to_nat i). by apply Hm. }
  assert (∀ u, ev g u → ∃ i, w !! u = Some i ∧ m !! i = Some u) as Hwm.
  { intros u [i Hi]%Himg. exists i. split; [by apply Hw|done]. }
  destruct (edges_spec _ Hgg) as (es & Hes & _ & Hes_in & _).
  assert (adds (fold_res (λ h u, i ← unwrap (w !! u); Ok (eg_add_vertex h i).1) (vertices (eg_graph g)))
     (λ x, ∃ u, u ∈ vertices (eg_graph g) ∧ w !! u = Some x) (λ _ _, ∃ u, u ∈ vertices (eg_graph g) ∧ False)) as H1.
  { apply (adds_fold _ _ (λ u x, w !! u = Some x) (λ _ _ _, False)). intros u Hu.
    apply (eg_vertices _ _ Hg), Hwm in Hu as (i & Hi & _). rewrite Hi. cbn.
    eapply adds_ext; [apply (adds_vertex i)|done| |done]. intros x. cbv beta. naive_solver. }
  assert (adds (fold_res (λ h e, i ← unwrap (w !! e.1); j ← unwrap (w !! e.2);
                       r ← eg_add_edge h i j; Ok r.1) es)
     (λ x, ∃ e : N * N, e ∈ es ∧ (w !! e.1 = Some x ∨ w !! e.2 = Some x))
     (λ x y, ∃ e : N * N, e ∈ es ∧ ((w !! e.1 = Some x ∧ w !! e.2 = Some y) ∨ (w !! e.2 = Some x ∧ w !! e.1 = Some y)))) as H2.
  { apply (adds_fold _ _ (λ (e : N * N) x, w !! e.1 = Some x ∨ w !! e.2 = Some x)
       (λ (e : N * N) x y, (w !! e.1 = Some x ∧ w !! e.2 = Some y) ∨ (w !! e.2 = Some x ∧ w !! e.1 = Some y))).
    intros [u v] [_ He]%Hes_in. cbn [fst snd].
    assert (ev g u) as Hu by exact (ea_ev g u v Hg He). assert (ev g v) as Hv by exact (ea_ev g v u Hg (ea_sym g u v Hg He)).
    apply Hwm in Hu as (i & Hi & _). apply Hwm in Hv as (j & Hj & _). rewrite Hi, Hj. cbn.
    eapply adds_ext; [apply (adds_edge i j)|done| |]; cbv beta; naive_solver. }
  destruct (adds_new _ _ _ (adds_seq _ _ _ _ _ _ H1 H2)) as (h & Hok & Hwf & HV & HE).
  exists h, m.
  assert (∀ i j, ea h i j ↔ ∃ u v, m !! i = Some u ∧ m !! j = Some v ∧ ea g u v) as HE'.
  { intros i j. rewrite HE. setoid_rewrite Hw. split.
    - intros [(? & ? & [])|([u v] & [_ He]%Hes_in & Hij)]. cbn in Hij.
      destruct Hij as [[? ?]|[? ?]]; [by eauto|]. exists v, u. split_and!; [done..|by apply ea_sym].
    - intros (u & v & Hu & Hv & He). right. destruct (N.le_gt_cases u v).
      + exists (u, v). rewrite Hes_in. split; [done|]. cbn. auto.
      + exists (v, u). rewrite Hes_in. split; [split; [lia|by apply ea_sym]|]. cbn. auto. }
  assert (∀ i, ev h i ↔ (i < N.of_nat (eg_num_vertices g))%N) as HV'.
  { intros i. rewrite HV, <- Hdom. setoid_rewrite Hw. setoid_rewrite (eg_vertices g _ Hg). split.
    - intros [(u & _ & ?)|([u v] & _ & [?|?])]; eauto.
    - intros [u Hu]. left. exists u. split; [|done]. apply Himg. eauto. }
  split_and!; try done.
  - destruct (fold_res _ (vertices (eg_graph g)) eg_new) as [h0| |]; cbn [mbind res_bind] in Hok |- *; [|done|done].
    rewrite Hes. cbn [mbind res_bind]. rewrite Hok. done.
  - intros i j u v Hi Hj Hij. apply Hm in Hi, Hj. eapply sorted_lookup_lt; [done..|lia].
  - change (eg_num_edges h) with (num_edges (eg_graph h)).
    change (eg_num_edges g) with (num_edges (eg_graph g)). symmetry.
    apply (num_edges_inj _ _ (λ i, default 0%N (m !! i))); [by apply eg_graph_wf|done| |].
    + intros i j. change (vtx (eg_graph h)) with (ev h). rewrite !HV', <- !Hdom.
      intros [u Hu] [v Hv]. rewrite Hu, Hv. cbn. intros ->. apply Hm in Hu, Hv.
      pose proof (NoDup_lookup _ _ _ _ Hnd Hu Hv). lia.
    + intros x y. change (adj (eg_graph h)) with (ea h). change (adj (eg_graph g)) with (ea g).
      split.
      * intros Hxy. assert (ev g x) as Hx by (by eapply ea_ev).
        assert (ev g y) as Hy by (eapply ea_ev, ea_sym; done).
        apply Himg in Hx as [i Hi]. apply Himg in Hy as [j Hj]. exists i, j. rewrite Hi, Hj.
        split_and!; [done..|]. apply HE'. eauto.
      * intros (i & j & -> & -> & (u & v & -> & -> & ?)%HE'). done.
Qed.

End with_iter.
