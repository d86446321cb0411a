(** Renaming vertices: core numbers under embeddings, and inverses of isomorphisms. *)
From Verif Require Import Base Spec M_Graph M_Iterators M_EditGraph M_Algorithms S_Graph
  P_EditGraph P_EditGraph2 P_Graph P_Iterators P_Degeneracy P_Determin2.

(** [f] maps the first graph injectively into the second: vertices to vertices, edges to edges. *)
Definition embeds (f : N → N) (G1 G2 : graph) : Prop :=
  (∀ u v, contains G1 u = true → contains G1 v = true → f u = f v → u = v) ∧
  (∀ u, contains G1 u = true → contains G2 (f u) = true) ∧
  ∀ u v, adjacent G1 u v = true → adjacent G2 (f u) (f v) = true.
(** [f] renames the vertices of the first graph, and the second graph is the result. *)
Definition renames (f : N → N) (G1 G2 : graph) : Prop :=
  (∀ u v, contains G1 u = true → contains G1 v = true → f u = f v → u = v) ∧
  (∀ x, contains G2 x = true ↔ ∃ u, contains G1 u = true ∧ x = f u) ∧
  ∀ u v, contains G1 u = true → contains G1 v = true → adjacent G1 u v = adjacent G2 (f u) (f v).

Lemma renames_embeds f G1 G2 : graph_wf G1 → renames f G1 G2 → embeds f G1 G2.
Proof.
  intros Hw (Hi & Hv & Ha). split_and!; [done| |].
  - intros u Hu. apply Hv. eauto.
  - intros u v Huv. rewrite <- Ha; [done|by apply (wf_adj_vtx _ Hw u v)|].
    apply (wf_adj_sym _ Hw) in Huv. by apply (wf_adj_vtx _ Hw v u).
Qed.

Lemma renames_inverse f G1 G2 : graph_wf G1 → graph_wf G2 → renames f G1 G2 →
  ∃ g, renames g G2 G1 ∧ (∀ u, contains G1 u = true → g (f u) = u) ∧ ∀ x, contains G2 x = true → f (g x) = x.
Proof.
  intros Hw Hw2 (Hi & Hv & Ha).
  set (g := λ x, match list_find (λ u, f u = x) (vertices G1) with Some (_, u) => u | None => 0%N end).
  assert (∀ u, contains G1 u = true → g (f u) = u) as Hgf.
  { intros u Hu. unfold g. destruct (list_find (λ w, f w = f u) (vertices G1)) as [[i w]|] eqn:E.
    - apply list_find_Some in E as (Hl & Hfw & _). apply Hi; [|done|done]. apply (wf_vertices _ Hw). by eapply elem_of_list_lookup_2.
    - apply list_find_None in E. rewrite Forall_forall in E. destruct (E u); [|done]. by apply (wf_vertices _ Hw). }
  assert (∀ x, contains G2 x = true → f (g x) = x) as Hfg.
  { intros x (u & Hu & ->)%Hv. by rewrite Hgf. }
  exists g. split_and!; [|done|done]. split_and!.
  - intros x y Hx Hy Hxy. rewrite <- (Hfg x Hx), <- (Hfg y Hy). by rewrite Hxy.
  - intros u. split.
    + intros Hu. exists (f u). rewrite Hgf by done. split; [|done]. apply Hv. eauto.
    + intros (x & (w & Hwv & ->)%Hv & ->). by rewrite Hgf.
  - intros x y (u & Hu & ->)%Hv (v & Hvv & ->)%Hv. rewrite !Hgf by done. symmetry. by apply Ha.
Qed.

(** The remaining degree at an image is at least the remaining degree at the vertex. *)
Lemma rdeg_embed (f : N → N) (G1 G2 : graph) (o1 o2 : list N) w : graph_wf G1 → graph_wf G2 → embeds f G1 G2 → vtx G1 w →
  (∀ u, vtx G1 u → f u ∈ o2 → u ∈ o1) → rdeg G1 o1 w ≤ rdeg G2 o2 (f w).
Proof.
  intros Hw1 Hw2 (Hi & Hv & Ha) Hv1 Ho. destruct (nbrs_spec G1 w Hw1 Hv1) as (_ & Hnd1 & Hn1 & _).
  destruct (nbrs_spec G2 (f w) Hw2 (Hv w Hv1)) as (_ & Hnd2 & Hn2 & _).
  unfold rdeg. rewrite <- (fmap_length f (filter _ (nbrs G1 w))). apply submseteq_length, NoDup_submseteq.
  - apply NoDup_fmap_2_strong; [|by apply NoDup_filter]. intros u v.
    rewrite !elem_of_list_filter, !Hn1. intros [_ Hu] [_ Hv']. apply (wf_adj_sym _ Hw1) in Hu, Hv'.
    apply Hi; by eapply (wf_adj_vtx _ Hw1).
  - intros x (u & -> & Hu)%elem_of_list_fmap. rewrite elem_of_list_filter, Hn1 in Hu. destruct Hu as [Hu Hau].
    rewrite elem_of_list_filter, Hn2. split; [|by apply Ha]. intros Hu2. apply Hu, Ho; [|done].
    apply (wf_adj_sym _ Hw1) in Hau. by eapply (wf_adj_vtx _ Hw1).
Qed.

Lemma core_embed (f : N → N) (G1 G2 : graph) s1 s2 v c1 c2 : graph_wf G1 → graph_wf G2 → embeds f G1 G2 →
  dgn_inv G1 s1 → (∀ u, u ∈ dgn_order s1 ↔ vtx G1 u) → dgn_inv G2 s2 → (∀ u, u ∈ dgn_order s2 ↔ vtx G2 u) →
  dgn_core s1 !! v = Some c1 → dgn_core s2 !! f v = Some c2 → c1 ≤ c2.
Proof.
  intros Hw1 Hw2 He HI1 Ho1 HI2 Ho2 Hc1 Hc2. pose proof He as (Hinj & Hv & Ha).
  assert (v ∈ dgn_order s1) as Hv1 by (apply (gi_core _ _ HI1); eauto).
  assert (f v ∈ dgn_order s2) as Hv2 by (apply (gi_core _ _ HI2); eauto).
  apply elem_of_list_lookup in Hv1 as [i Hi]. apply elem_of_list_lookup in Hv2 as [k Hk].
  destruct (gi_lower _ _ HI1 i v c1 Hi Hc1) as (i0 & Hi0 & Hlow).
  set (H0 := filter (λ x, x ∉ take i0 (dgn_order s1)) (dgn_order s1)).
  set (H := list_to_set (f <$> H0) : gset N).
  assert (∀ x, x ∈ H ↔ ∃ u, x = f u ∧ vtx G1 u ∧ u ∉ take i0 (dgn_order s1)) as HH.
  { intros x. unfold H, H0. rewrite elem_of_list_to_set, elem_of_list_fmap. setoid_rewrite elem_of_list_filter.
    setoid_rewrite Ho1. naive_solver. }
  destruct (first_in H (dgn_order s2) k (f v) Hk) as (j & w' & Hjk & Hj & HwH & Hfirst).
  { apply HH. exists v. split; [done|]. split; [apply Ho1; by eapply elem_of_list_lookup_2|]. intros (j & Hj & Hjl)%elem_of_take.
    pose proof (NoDup_lookup _ _ _ _ (gi_nodup _ _ HI1) Hi Hj). lia. }
  apply HH in HwH as (w & -> & Hwv & Hwn). specialize (Hlow w Hwv Hwn).
  assert (is_Some (dgn_core s2 !! f w)) as [cw Hcw] by (apply (gi_core _ _ HI2); by eapply elem_of_list_lookup_2).
  pose proof (gi_mono _ _ HI2 j k (f w) (f v) cw c2 Hj Hk Hcw Hc2 Hjk) as Hmono.
  pose proof (gi_upper _ _ HI2 j (f w) cw Hj Hcw) as Hup.
  assert (rdeg G1 (take i0 (dgn_order s1)) w ≤ rdeg G2 (take j (dgn_order s2)) (f w)) as Hr.
  { apply rdeg_embed; [done..|]. intros u Hu Hu2.
    destruct (decide (u ∈ take i0 (dgn_order s1))); [done|]. destruct (Hfirst (f u) Hu2). apply HH. eauto. }
  apply calc_index_mono in Hr. lia.
Qed.

Lemma degeneracy_embed (H1 H2 : HashIter) (f : N → N) (G1 G2 : graph) lo1 up1 o1 c1 lo2 up2 o2 c2 :
  graph_wf G1 → graph_wf G2 → loopless G1 → loopless G2 → embeds f G1 G2 →
  @degeneracy H1 G1 = Ok (lo1, up1, o1, c1) → @degeneracy H2 G2 = Ok (lo2, up2, o2, c2) →
  lo1 ≤ lo2 ∧ up1 ≤ up2 ∧ ∀ v a, c1 !! v = Some a → ∃ b, c2 !! f v = Some b ∧ a ≤ b.
Proof.
  intros Hw1 Hw2 Hl1 Hl2 He Hd1 Hd2. pose proof He as (_ & Hv & _).
  destruct (@degeneracy_inv H1 G1 Hw1 Hl1) as (s1 & Hs1 & HI1 & Ho1). rewrite Hd1 in Hs1. injection Hs1 as -> -> -> ->.
  destruct (@degeneracy_inv H2 G2 Hw2 Hl2) as (s2 & Hs2 & HI2 & Ho2). rewrite Hd2 in Hs2. injection Hs2 as -> -> -> ->.
  assert (∀ v a, dgn_core s1 !! v = Some a → ∃ b, dgn_core s2 !! f v = Some b ∧ a ≤ b) as Hc.
  { intros v a Hva. assert (is_Some (dgn_core s2 !! f v)) as [b Hb].
    { apply (gi_core _ _ HI2), Ho2, Hv, Ho1, (gi_core _ _ HI1). eauto. }
    exists b. split; [done|]. by eapply (core_embed f G1 G2 s1 s2 v). }
  assert (dgn_num s1 ≤ dgn_num s2) as Hn.
  { destruct (gi_num_last _ _ HI1) as [[_ ->]|[v Hvn]]; [lia|]. destruct (Hc v _ Hvn) as (b & Hb & Hle).
    etrans; [exact Hle|]. by eapply (gi_num _ _ HI2). }
  split_and!; [by apply dgn_lower_mono|done|done].
Qed.

(** Walks follow an embedding. *)
Lemma embed_nsteps f G1 G2 n u v : embeds f G1 G2 → nsteps (adj G1) n u v → nsteps (adj G2) n (f u) (f v).
Proof. intros (_ & _ & Ha). apply nsteps_congruence. intros x y. apply Ha. Qed.
Lemma embed_rtc f G1 G2 u v : embeds f G1 G2 → rtc (adj G1) u v → rtc (adj G2) (f u) (f v).
Proof. intros (_ & _ & Ha). apply rtc_congruence. intros x y. apply Ha. Qed.
Lemma walk_vtx G n u v : graph_wf G → vtx G u → nsteps (adj G) n u v → vtx G v.
Proof.
  intros Hw Hu Hs. revert Hu. induction Hs as [x|n x y z Hxy _ IH]; intros Hu; [done|]. apply IH.
  apply (wf_adj_sym _ Hw) in Hxy. by eapply (wf_adj_vtx _ Hw).
Qed.

Lemma renames_degree f G1 G2 : graph_wf G1 → graph_wf G2 → renames f G1 G2 → ∀ u, contains G1 u = true → degree G1 u = degree G2 (f u).
Proof.
  intros Hw1 Hw2 Hr. pose proof Hr as (Hi & Hv & Ha). pose proof (renames_embeds f G1 G2 Hw1 Hr) as He.
  intros u Hu. destruct (wf_neighbours _ Hw1 u Hu) as (l1 & _ & Hn1 & He1 & ->).
  destruct (wf_neighbours _ Hw2 (f u)) as (l2 & _ & Hn2 & He2 & ->); [apply Hv; eauto|]. rewrite <- Ha by done. f_equal.
  rewrite <- (fmap_length f l1). apply Permutation_length, NoDup_Permutation; [|done|].
  - apply NoDup_fmap_2_strong; [|done]. intros x y Hx%He1%(wf_adj_sym _ Hw1) Hy%He1%(wf_adj_sym _ Hw1).
    apply Hi; by eapply (wf_adj_vtx _ Hw1).
  - intros x. rewrite elem_of_list_fmap, He2. split.
    + intros (y & -> & Hy%He1). by apply He.
    + intros Hx. pose proof Hx as (y & Hy & ->)%(wf_adj_sym _ Hw2)%(wf_adj_vtx _ Hw2)%Hv.
      exists y. split; [done|]. apply He1. unfold adj in *. by rewrite Ha.
Qed.

Lemma embed_num_edges f G1 G2 : graph_wf G1 → graph_wf G2 → embeds f G1 G2 → num_edges G1 ≤ num_edges G2.
Proof.
  intros Hw1 Hw2 (Hi & Hv & Ha). destruct (wf_num_edges _ Hw1) as (E1 & HE1 & ->), (wf_num_edges _ Hw2) as (E2 & HE2 & ->).
  set (F := λ e : N * N, upair (f e.1) (f e.2)). unfold size, set_size. cbn.
  rewrite <- (fmap_length F (elements E1)). apply submseteq_length, NoDup_submseteq.
  - apply NoDup_fmap_2_strong; [|apply NoDup_elements].
    intros [a b] [c d] [Hab Hadj]%elem_of_elements%HE1 [Hcd Hadj2]%elem_of_elements%HE1. unfold F, upair. cbn.
    assert (vtx G1 a ∧ vtx G1 b ∧ vtx G1 c ∧ vtx G1 d) as (Va & Vb & Vc & Vd).
    { split_and!; eapply (wf_adj_vtx _ Hw1); first [done|by apply (wf_adj_sym _ Hw1)]. }
    assert (∀ x y, vtx G1 x → vtx G1 y → f x = f y → x = y) as Hi' by exact Hi.
    destruct (f a <=? f b)%N, (f c <=? f d)%N; intros [= He1 He2]; apply Hi' in He1, He2; try done; subst; first [done|f_equal; lia].
  - intros x ([a b] & -> & [Hab Hadj]%elem_of_elements%HE1)%elem_of_list_fmap. apply elem_of_elements. unfold F, upair. cbn.
    destruct (f a <=? f b)%N eqn:E; apply HE2.
    + split; [by apply N.leb_le|by apply Ha].
    + split; [apply N.leb_gt in E; lia|]. apply (wf_adj_sym _ Hw2). by apply Ha.
Qed.

(** ** Renaming histories of edits *)
Definition rename_op (f : N → N) (o : edit_op) : edit_op :=
  match o with
  | AddVertex u => AddVertex (f u)
  | AddEdge u v => AddEdge (f u) (f v)
  | RemoveEdge u v => RemoveEdge (f u) (f v)
  | RemoveVertex u => RemoveVertex (f u)
  end.

Section ops.
Context (f : N → N) `{Hf : !Inj (=) (=) f}.

Lemma renames_adjacent_all G1 G2 u v : graph_wf G1 → graph_wf G2 → renames f G1 G2 → adjacent G2 (f u) (f v) = adjacent G1 u v.
Proof.
  intros Hw1 Hw2 (Hi & Hv & Ha).
  assert (∀ G x y, graph_wf G → adjacent G x y = true → contains G x = true ∧ contains G y = true) as Hav.
  { intros G x y HG Hxy. pose proof (wf_adj_sym _ HG _ _ Hxy). split; by eapply (wf_adj_vtx _ HG). }
  assert (∀ x, contains G2 (f x) = true → contains G1 x = true) as Hc by (by intros x (y & Hy & ->%(inj f))%Hv).
  destruct (adjacent G2 (f u) (f v)) eqn:E2, (adjacent G1 u v) eqn:E1; [done| | |done].
  - apply (Hav G2 _ _ Hw2) in E2 as E2'. destruct E2' as [Hu%Hc Hvv%Hc]. rewrite Ha in E1 by done. congruence.
  - apply (Hav G1 _ _ Hw1) in E1 as E1'. destruct E1' as [Hu Hvv]. rewrite <- Ha in E2 by done. congruence.
Qed.
Lemma renames_contains_all G1 G2 u : renames f G1 G2 → contains G2 (f u) = contains G1 u.
Proof.
  intros (Hi & Hv & Ha). destruct (contains G1 u) eqn:E1; [apply Hv; eauto|]. apply not_true_is_false. intros (y & Hy & ->%(inj f))%Hv. congruence.
Qed.

Definition arenames (A B : agraph) : Prop :=
  (∀ y, y ∈ av B ↔ ∃ x, x ∈ av A ∧ y = f x) ∧ ∀ e, e ∈ ae B ↔ ∃ u v, upair u v ∈ ae A ∧ e = upair (f u) (f v).

Lemma upair_comm u v : upair u v = upair v u.
Proof. unfold upair. destruct (N.leb_spec u v), (N.leb_spec v u); f_equal; lia. Qed.
Lemma upair_inv u v a b : upair u v = upair a b → (u = a ∧ v = b) ∨ (u = b ∧ v = a).
Proof. unfold upair. destruct (N.leb_spec u v), (N.leb_spec a b); intros [= -> ->]; auto. Qed.
Lemma upair_f u v a b : upair (f u) (f v) = upair (f a) (f b) ↔ upair u v = upair a b.
Proof.
  split.
  - intros [[->%(inj f) ->%(inj f)]|[->%(inj f) ->%(inj f)]]%upair_inv; [done|apply upair_comm].
  - intros [[-> ->]|[-> ->]]%upair_inv; [done|apply upair_comm].
Qed.
Lemma arenames_av A B u : arenames A B → f u ∈ av B ↔ u ∈ av A.
Proof. intros [Hv _]. rewrite Hv. split; [by intros (x & ? & ->%(inj f))|eauto]. Qed.
Lemma arenames_ae A B u v : arenames A B → upair (f u) (f v) ∈ ae B ↔ upair u v ∈ ae A.
Proof. intros [_ He]. rewrite He. split; [|eauto]. intros (a & b & ? & ->%upair_f). done. Qed.

Lemma arenames_step A B o : arenames A B → arenames (a_step A o).1 (a_step B (rename_op f o)).1 ∧ (a_step B (rename_op f o)).2 = (a_step A o).2.
Proof.
  intros HR. pose proof HR as [Hv He]. destruct o as [u|u v|u v|u]; cbn [rename_op a_step fst snd].
  - split.
    + split; [|exact He]. intros y. cbn. rewrite elem_of_union, elem_of_singleton, Hv. setoid_rewrite elem_of_union. setoid_rewrite elem_of_singleton. naive_solver.
    + apply bool_decide_ext. by rewrite (arenames_av A B).
  - split.
    + split.
      * intros y. cbn. rewrite !elem_of_union, !elem_of_singleton, Hv. setoid_rewrite elem_of_union. setoid_rewrite elem_of_union. setoid_rewrite elem_of_singleton. naive_solver.
      * intros e. cbn. rewrite elem_of_union, elem_of_singleton, He. setoid_rewrite elem_of_union. setoid_rewrite elem_of_singleton. split.
        -- intros [->|(a & b & ? & ->)]; eauto 10.
        -- intros (a & b & [Hab|?] & ->); [|eauto 10]. left. by apply upair_f.
    + apply bool_decide_ext. by rewrite (arenames_ae A B).
  - split.
    + split; [exact Hv|]. intros e. cbn. rewrite elem_of_difference, not_elem_of_singleton, He. setoid_rewrite elem_of_difference. setoid_rewrite not_elem_of_singleton. split.
      * intros [(a & b & ? & ->) Hn]. exists a, b. split; [|done]. split; [done|]. intros Hab. apply Hn. by apply upair_f.
      * intros (a & b & [? Hn] & ->). split; [eauto|]. intros Hab. apply Hn. by apply upair_f.
    + apply bool_decide_ext. by rewrite (arenames_ae A B).
  - split.
    + split.
      * intros y. cbn. rewrite elem_of_difference, not_elem_of_singleton, Hv. setoid_rewrite elem_of_difference. setoid_rewrite not_elem_of_singleton. split.
        -- intros [(x & ? & ->) Hn]. exists x. split; [|done]. split; [done|]. by intros ->.
        -- intros (x & [? Hn] & ->). split; [eauto|]. by intros ->%(inj f).
      * assert (∀ x a b, (upair a b).1 ≠ x ∧ (upair a b).2 ≠ x ↔ a ≠ x ∧ b ≠ x) as Hup.
        { intros x a b. unfold upair. destruct (a <=? b)%N; cbn; tauto. }
        intros e. cbn. rewrite elem_of_filter, He. setoid_rewrite elem_of_filter. split.
        -- intros [Hn (a & b & ? & ->)]. exists a, b. split; [|done]. split; [|done]. apply (proj2 (Hup _ _ _)). apply (proj1 (Hup _ _ _)) in Hn as [? ?]. split; congruence.
        -- intros (a & b & [Hn ?] & ->). split; [|eauto]. apply (proj2 (Hup _ _ _)). apply (proj1 (Hup _ _ _)) in Hn as [? ?]. split; intros ?%(inj f); congruence.
    + apply bool_decide_ext. by rewrite (arenames_av A B).
Qed.
Lemma arenames_run os : ∀ A B, arenames A B → arenames (a_run A os).1 (a_run B (rename_op f <$> os)).1 ∧ (a_run B (rename_op f <$> os)).2 = (a_run A os).2.
Proof.
  induction os as [|o os IH]; intros A B HR; [done|]. cbn [fmap list_fmap a_run].
  destruct (arenames_step A B o HR) as [HR' Hb]. destruct (a_step A o) as [A' b], (a_step B (rename_op f o)) as [B' b']. cbn [fst snd] in *. subst b'.
  destruct (IH A' B' HR') as [HR2 Hbs]. cbn [fmap] in *. destruct (a_run A' os), (a_run B' _). cbn [fst snd] in *. by subst.
Qed.
Lemma arenames_empty : arenames a_empty a_empty.
Proof. split; cbn; set_solver. Qed.
End ops.
