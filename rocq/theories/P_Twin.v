(** Proofs that functions of the Graph trait only see which vertices are neighbours, not how
    often and in which order [neighbours] yields them. *)
From Verif Require Import Base Spec M_Graph M_Iterators M_EditGraph M_Algorithms M_Operations S_Graph S_Multi
  P_EditGraph P_EditGraph2 P_Graph P_Iterators P_Unions P_Operations P_Components.

(** Two Graph implementations with the same vertices and the same neighbour sets. *)
Record twin (G G' : graph) : Prop := {
  tw_l : weak_wf G;
  tw_r : weak_wf G';
  tw_vertices : vertices G = vertices G';
  tw_adj : ∀ u v, adj G u v ↔ adj G' u v;
  tw_absent : ∀ v, ¬ vtx G v → neighbours G v = Panic ∧ neighbours G' v = Panic;
}.

Lemma tw_vtx G G' v : twin G G' → vtx G v ↔ vtx G' v.
Proof. intros T. by rewrite <- (ww_vertices _ (tw_l _ _ T)), <- (ww_vertices _ (tw_r _ _ T)), (tw_vertices _ _ T). Qed.
Lemma tw_num G G' : twin G G' → num_vertices G = num_vertices G'.
Proof. intros T. by rewrite (ww_num_vertices _ (tw_l _ _ T)), (ww_num_vertices _ (tw_r _ _ T)), (tw_vertices _ _ T). Qed.
Lemma tw_nb G G' v : twin G G' → (neighbours G v = Panic ∧ neighbours G' v = Panic) ∨
  ∃ l l', neighbours G v = Ok l ∧ neighbours G' v = Ok l' ∧ (list_to_set l : gset N) = list_to_set l'.
Proof.
  intros T. destruct (decide (contains G v = true)) as [Hv|Hv]; [right|left; by apply (tw_absent _ _ T)].
  destruct (ww_neighbours _ (tw_l _ _ T) v Hv) as (l & El & Hl).
  destruct (ww_neighbours _ (tw_r _ _ T) v) as (l' & El' & Hl'); [by apply (tw_vtx _ _ _ T)|].
  exists l, l'. split_and!; [done..|]. apply set_eq. intros u. rewrite !elem_of_list_to_set, Hl, Hl'. apply (tw_adj _ _ T).
Qed.

Section with_iter.
Context `{HI : HashIter}.

Lemma fold_res_ext {A S} (f g : S → A → res S) l : (∀ s a, f s a = g s a) → ∀ s, fold_res f l s = fold_res g l s.
Proof.
  intros E. induction l as [|a l IH]; intros s; cbn; [done|]. rewrite E. destruct (g s a); cbn; [apply IH|done..].
Qed.

Lemma twin_neighbourhoods G G' X : twin G G' →
  neighbourhood G X = neighbourhood G' X ∧ closed_neighbourhood G X = closed_neighbourhood G' X ∧
  (∀ r, r_neighbourhood G X r = r_neighbourhood G' X r) ∧ subgraph G X = subgraph G' X.
Proof.
  intros T.
  assert (∀ X, closed_neighbourhood G X = closed_neighbourhood G' X) as Hc.
  { intros Y. unfold closed_neighbourhood. apply fold_res_ext. intros s v.
    destruct (tw_nb G G' v T) as [[-> ->]|(l & l' & -> & -> & E)]; cbn; [done|by rewrite E]. }
  split_and!.
  - unfold neighbourhood. f_equal. apply fold_res_ext. intros s v.
    destruct (tw_nb G G' v T) as [[-> ->]|(l & l' & -> & -> & E)]; cbn; [done|by rewrite E].
  - apply Hc.
  - intros r. unfold r_neighbourhood. generalize (list_to_set X : gset N). induction r as [|r IH]; intros acc; cbn; [done|].
    rewrite Hc. destruct (closed_neighbourhood G' _); cbn; [apply IH|done..].
  - unfold subgraph. apply fold_res_ext. intros h v.
    destruct (tw_nb G G' v T) as [[-> ->]|(l & l' & -> & -> & E)]; cbn; [done|].
    assert (collect_set l = (collect_set l' : gset N)) as E' by exact E. by rewrite E'.
Qed.

Lemma components_set G cs : components G = Ok cs → ∃ S, cs = hash_iter 0 S.
Proof. unfold components. intros (es & _ & (ds & _ & [= <-])%bind_ok)%bind_ok. eauto. Qed.

Lemma twin_components G G' : twin G G' → components G = components G'.
Proof.
  intros T. destruct (components_weak G (tw_l _ _ T)) as (cs & E & _ & Hne & Hdj & Hv & Hr).
  destruct (components_weak G' (tw_r _ _ T)) as (cs' & E' & _ & Hne' & Hdj' & Hv' & Hr'). rewrite E, E'. f_equal.
  assert (∀ u v, rtc (adj G) u v ↔ rtc (adj G') u v) as Hrr.
  { intros u v. split; intros Huv; induction Huv as [|u w v Huw _ IH]; try done; (eapply rtc_l; [by apply (tw_adj _ _ T)|done]). }
  assert (∀ X, X ∈ cs ↔ X ∈ cs') as Hin.
  { assert (∀ X Y u, X ∈ cs → Y ∈ cs' → u ∈ X → u ∈ Y → X = Y) as Hsame.
    { intros X Y u HX HY HuX HuY. assert (vtx G u) as Hu by (apply Hv; eauto). apply set_eq. intros v. split.
      - intros HvX. assert (rtc (adj G') u v) as Huv by (apply Hrr, Hr; eauto).
        apply Hr' in Huv as (Z & HZ & HuZ & HvZ); [|by apply (tw_vtx _ _ _ T)].
        destruct (decide (Z = Y)) as [->|Hn]; [done|]. destruct (Hdj' Z Y HZ HY Hn u HuZ HuY).
      - intros HvY. assert (rtc (adj G) u v) as Huv by (apply Hrr, Hr'; [by apply (tw_vtx _ _ _ T)|eauto]).
        apply Hr in Huv as (Z & HZ & HuZ & HvZ); [|done].
        destruct (decide (Z = X)) as [->|Hn]; [done|]. destruct (Hdj Z X HZ HX Hn u HuZ HuX). }
    intros X. split.
    - intros HX. destruct (set_choose_L X (Hne X HX)) as (u & Hu). destruct (proj1 (Hv' u)) as (Y & HY & HuY); [apply (tw_vtx _ _ _ T), Hv; eauto|].
      by rewrite (Hsame X Y u HX HY Hu HuY).
    - intros HX. destruct (set_choose_L X (Hne' X HX)) as (u & Hu). destruct (proj1 (Hv u)) as (Y & HY & HuY); [apply (tw_vtx _ _ _ T), Hv'; eauto|].
      by rewrite <- (Hsame Y X u HY HX HuY Hu). }
  apply components_set in E as (S & ->), E' as (S' & ->). f_equal. apply set_eq. intros X. specialize (Hin X).
  by rewrite !elem_of_hash_iter in Hin.
Qed.

Lemma twin_merge G G' H H' : twin G G' → twin H H' → merge_graphs G H = merge_graphs G' H'.
Proof.
  intros T T'. destruct (merge_spec G H (tw_l _ _ T) (tw_l _ _ T')) as (h & -> & Wh & Vh & Ah).
  destruct (merge_spec G' H' (tw_r _ _ T) (tw_r _ _ T')) as (h' & -> & Wh' & Vh' & Ah'). f_equal. apply eg_wf_ext; [done..| |].
  - intros x. by rewrite Vh, Vh', (tw_vtx _ _ _ T), (tw_vtx _ _ _ T').
  - intros x y. by rewrite Ah, Ah', (tw_adj _ _ T), (tw_adj _ _ T').
Qed.

Lemma twin_products G G' H H' : twin G G' → twin H H' → (N.of_nat (num_vertices G * num_vertices H) <= 4294967296)%N →
  cartesian_product G H = cartesian_product G' H' ∧ lexicographic_product G H = lexicographic_product G' H'.
Proof.
  intros T T' Hsz. assert (product_ids G H = product_ids G' H') as Hids.
  { unfold product_ids. by rewrite (tw_vertices _ _ T), (tw_vertices _ _ T'). }
  pose proof Hsz as Hsz'. rewrite (tw_num _ _ T), (tw_num _ _ T') in Hsz'.
  split.
  - destruct (cartesian_spec G H (tw_l _ _ T) (tw_l _ _ T') Hsz) as (h & inv & E & Wh & _ & _ & Vh & Ah).
    destruct (cartesian_spec G' H' (tw_r _ _ T) (tw_r _ _ T') Hsz') as (h' & inv' & E' & Wh' & _ & _ & Vh' & Ah'). rewrite E, E'.
    apply bind_ok in E as (k & _ & [= <- <-]), E' as (k' & _ & [= <- <-]). rewrite <- Hids in *. f_equal. f_equal. apply eg_wf_ext; [done..| |].
    + intros x. rewrite Vh, Vh'. unfold cart_adj. by setoid_rewrite (tw_vtx _ _ _ T); setoid_rewrite (tw_vtx _ _ _ T'); setoid_rewrite (tw_adj _ _ T); setoid_rewrite (tw_adj _ _ T').
    + intros x y. rewrite Ah, Ah'. unfold cart_adj. by setoid_rewrite (tw_vtx _ _ _ T); setoid_rewrite (tw_vtx _ _ _ T'); setoid_rewrite (tw_adj _ _ T); setoid_rewrite (tw_adj _ _ T').
  - destruct (lexicographic_spec G H (tw_l _ _ T) (tw_l _ _ T') Hsz) as (h & inv & E & Wh & _ & _ & Vh & Ah).
    destruct (lexicographic_spec G' H' (tw_r _ _ T) (tw_r _ _ T') Hsz') as (h' & inv' & E' & Wh' & _ & _ & Vh' & Ah'). rewrite E, E'.
    apply bind_ok in E as (k & _ & [= <- <-]), E' as (k' & _ & [= <- <-]). rewrite <- Hids in *. f_equal. f_equal. apply eg_wf_ext; [done..| |].
    + intros x. rewrite Vh, Vh'. unfold lex_adj. by setoid_rewrite (tw_vtx _ _ _ T); setoid_rewrite (tw_vtx _ _ _ T'); setoid_rewrite (tw_adj _ _ T); setoid_rewrite (tw_adj _ _ T').
    + intros x y. rewrite Ah, Ah'. unfold lex_adj. by setoid_rewrite (tw_vtx _ _ _ T); setoid_rewrite (tw_vtx _ _ _ T'); setoid_rewrite (tw_adj _ _ T); setoid_rewrite (tw_adj _ _ T').
Qed.

Lemma twin_disj_union g G G' : twin G G' → eg_wf g →
  (∀ v, vtx G v → (v < 4294967296)%N) → (∀ u v, ev g u → vtx G v → (u + 1 + v < 4294967296)%N) →
  eg_disj_union g G = eg_disj_union g G'.
Proof.
  intros T Hg B1 B2. destruct (eg_disj_union_weak g G Hg (tw_l _ _ T) B1 B2) as (h & off & -> & Wh & L & U & Vh & Ah).
  destruct (eg_disj_union_weak g G' Hg (tw_r _ _ T)) as (h' & off' & -> & Wh' & L' & U' & Vh' & Ah').
  { intros v Hv. by apply B1, (tw_vtx _ _ _ T). }
  { intros u v Hu Hv. apply B2; [done|]. by apply (tw_vtx _ _ _ T). }
  assert (∀ v, vtx G v → off = off') as Hoff.
  { intros v Hv. apply N.le_antisymm.
    - apply (U off'); [|eauto]. intros u Hu. apply (L' u v); [by apply (tw_vtx _ _ _ T)|done].
    - apply (U' off); [|exists v; by apply (tw_vtx _ _ _ T)]. intros u Hu. by apply (L u v). }
  f_equal. apply eg_wf_ext; [done..| |].
  - intros x. rewrite Vh, Vh'. split; intros [?|(v & Hv & ->)]; try (by left); right; exists v.
    + rewrite (Hoff v Hv). split; [by apply (tw_vtx _ _ _ T)|done].
    + apply (tw_vtx _ _ _ T) in Hv. rewrite (Hoff v Hv). done.
  - intros x y. rewrite Ah, Ah'. split; intros [?|(u & v & Huv & -> & ->)]; try (by left); right; exists u, v.
    + rewrite (Hoff u) by (by eapply (ww_adj_vtx _ (tw_l _ _ T))). split; [by apply (tw_adj _ _ T)|done].
    + apply (tw_adj _ _ T) in Huv. rewrite (Hoff u) by (by eapply (ww_adj_vtx _ (tw_l _ _ T))). done.
Qed.
End with_iter.
