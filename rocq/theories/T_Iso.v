(** Property theorem C90: the labels of the vertices carry no meaning.  Renaming the vertices of a
    graph by an injective function renames the results of the algorithms and changes nothing else.
    [H1] and [H2] are two arbitrary hash orders; the two graphs may be stored differently. *)
From Verif Require Import Base Spec M_Graph M_Iterators M_EditGraph M_Algorithms M_Operations S_Graph
  P_EditGraph P_EditGraph2 P_Graph P_Iterators P_Degeneracy P_Determin2 P_Iso T_EditGraph T_Algorithms T_Operations T_Determin2 Examples.

(** ** C90: degeneracy.  The bounds are the same, core numbers and the vertices of the order are renamed. *)
Theorem C90_degeneracy (H1 H2 : HashIter) (f : N → N) (G1 G2 : graph) : graph_wf G1 → graph_wf G2 → loopless G1 → renames f G1 G2 →
  ∃ lo up o1 o2 c1 c2, @degeneracy H1 G1 = Ok (lo, up, o1, c1) ∧ @degeneracy H2 G2 = Ok (lo, up, o2, c2) ∧
    (∀ v, contains G1 v = true → c2 !! f v = c1 !! v) ∧ o2 ≡ₚ f <$> o1.
Proof.
  intros Hw1 Hw2 Hl1 Hr. pose proof Hr as (Hi & Hv & Ha).
  destruct (renames_inverse f G1 G2 Hw1 Hw2 Hr) as (g & Hr' & Hgf & Hfg).
  assert (loopless G2) as Hl2.
  { intros x Hx. destruct (proj1 (Hv x)) as (u & Hu & ->); [by apply (wf_adj_vtx _ Hw2 x x)|].
    apply (Hl1 u). unfold adj in *. by rewrite Ha. }
  destruct (@C23_degeneracy_order H1 G1 Hw1 Hl1) as (lo1 & up1 & o1 & c1 & Hd1 & Hn1 & Ho1 & Hc1).
  destruct (@C23_degeneracy_order H2 G2 Hw2 Hl2) as (lo2 & up2 & o2 & c2 & Hd2 & Hn2 & Ho2 & Hc2).
  destruct (degeneracy_embed H1 H2 f G1 G2 lo1 up1 o1 c1 lo2 up2 o2 c2 Hw1 Hw2 Hl1 Hl2) as (HA1 & HA2 & HA3); [by apply renames_embeds|done|done|].
  destruct (degeneracy_embed H2 H1 g G2 G1 lo2 up2 o2 c2 lo1 up1 o1 c1 Hw2 Hw1 Hl2 Hl1) as (HB1 & HB2 & HB3); [by apply renames_embeds|done|done|].
  exists lo1, up1, o1, o2, c1, c2. split_and!; [done| | |].
  - by assert (lo2 = lo1) as -> by lia; assert (up2 = up1) as -> by lia.
  - intros v Hvv. assert (vtx G2 (f v)) as Hfv by (apply Hv; eauto). apply Hc2 in Hfv as [b Hb].
    destruct (HB3 _ _ Hb) as (a & Hga & Hle). rewrite Hgf in Hga by done. rewrite Hb, Hga. f_equal.
    destruct (HA3 _ _ Hga) as (b' & Hb' & Hle'). rewrite Hb in Hb'. injection Hb' as <-. lia.
  - apply NoDup_Permutation; [done| |].
    + apply NoDup_fmap_2_strong; [|done]. intros x y Hx%Ho1 Hy%Ho1. by apply Hi.
    + intros x. rewrite Ho2, elem_of_list_fmap. unfold vtx. rewrite Hv. setoid_rewrite Ho1. unfold vtx. naive_solver.
Qed.

(** A graph that embeds into another one has no larger bounds, and its core numbers are at most those of the images. *)
Theorem C90_degeneracy_embedding (H1 H2 : HashIter) (f : N → N) (G1 G2 : graph) : graph_wf G1 → graph_wf G2 → loopless G2 → embeds f G1 G2 →
  ∃ lo1 up1 o1 c1 lo2 up2 o2 c2, @degeneracy H1 G1 = Ok (lo1, up1, o1, c1) ∧ @degeneracy H2 G2 = Ok (lo2, up2, o2, c2) ∧
    lo1 ≤ lo2 ∧ up1 ≤ up2 ∧ ∀ v a, c1 !! v = Some a → ∃ b, c2 !! f v = Some b ∧ a ≤ b.
Proof.
  intros Hw1 Hw2 Hl2 He. assert (loopless G1) as Hl1 by (intros u Hu; by apply (Hl2 (f u)), He).
  destruct (@C23_degeneracy_order H1 G1 Hw1 Hl1) as (lo1 & up1 & o1 & c1 & Hd1 & _).
  destruct (@C23_degeneracy_order H2 G2 Hw2 Hl2) as (lo2 & up2 & o2 & c2 & Hd2 & _).
  exists lo1, up1, o1, c1, lo2, up2, o2, c2. split; [done|]. split; [done|]. by eapply (degeneracy_embed H1 H2 f G1 G2).
Qed.

(** ** C90: components. *)
Theorem C90_components (H1 H2 : HashIter) (f : N → N) (G1 G2 : graph) : graph_wf G1 → graph_wf G2 → renames f G1 G2 →
  ∃ cs1 cs2 : list (gset N), @components H1 G1 = Ok cs1 ∧ @components H2 G2 = Ok cs2 ∧ cs2 ≡ₚ set_map f <$> cs1.
Proof.
  intros Hw1 Hw2 Hr. pose proof Hr as (Hi & Hv & Ha). pose proof (renames_embeds f G1 G2 Hw1 Hr) as He.
  destruct (renames_inverse f G1 G2 Hw1 Hw2 Hr) as (g & Hr' & Hgf & Hfg). pose proof (renames_embeds g G2 G1 Hw2 Hr') as He'.
  destruct (@C22_components H1 G1 Hw1) as (cs1 & Hok1 & Hnd1 & Hne1 & Hdj1 & Hv1 & Hr1).
  destruct (@C22_components H2 G2 Hw2) as (cs2 & Hok2 & Hnd2 & Hne2 & Hdj2 & Hv2 & Hr2).
  exists cs1, cs2. split_and!; [done|done|].
  (* the component of [f u] is the image of that of [u] *)
  assert (∀ X Y u, X ∈ cs1 → Y ∈ cs2 → u ∈ X → f u ∈ Y → Y = set_map f X) as Hsame.
  { intros X Y u HX HY HuX HuY. apply set_eq. intros y. rewrite elem_of_map.
    assert (vtx G1 u) as Hu by (apply Hv1; eauto). assert (vtx G2 (f u)) as Hfu by (apply Hv2; eauto). split.
    - intros HyY. assert (rtc (adj G2) (f u) y) as Hst by (apply (Hr2 (f u) y Hfu); eauto).
      assert (contains G2 y = true) as Hy by (apply Hv2; eauto).
      apply (embed_rtc g G2 G1 _ _ He') in Hst. rewrite Hgf in Hst by done.
      apply (Hr1 u _ Hu) in Hst as (Z & HZ & HuZ & HyZ). exists (g y). split; [by rewrite Hfg|].
      destruct (decide (Z = X)) as [->|Hn]; [done|]. destruct (Hdj1 Z X HZ HX Hn u HuZ HuX).
    - intros (x & -> & HxX). assert (rtc (adj G1) u x) as Hst by (apply (Hr1 u x Hu); eauto).
      apply (embed_rtc f G1 G2 _ _ He) in Hst. apply (Hr2 (f u) _ Hfu) in Hst as (Z & HZ & HuZ & HyZ).
      destruct (decide (Z = Y)) as [->|Hn]; [done|]. destruct (Hdj2 Z Y HZ HY Hn (f u) HuZ HuY). }
  apply NoDup_Permutation; [done| |].
  - apply NoDup_fmap_2_strong; [|done]. intros X Y HX HY HXY. destruct (set_choose_L X (Hne1 X HX)) as (u & Hu).
    assert (f u ∈ (set_map f Y : gset N)) as (w & Hw & HwY)%elem_of_map by (rewrite <- HXY; apply elem_of_map; eauto).
    assert (u = w) as <- by (apply Hi; [apply Hv1; eauto|apply Hv1; eauto|done]).
    destruct (decide (X = Y)) as [|Hn]; [done|]. destruct (Hdj1 X Y HX HY Hn u Hu HwY).
  - intros Y. rewrite elem_of_list_fmap. split.
    + intros HY. destruct (set_choose_L Y (Hne2 Y HY)) as (y & Hy). assert (contains G2 y = true) as (u & Hu & ->)%Hv by (apply Hv2; eauto).
      apply Hv1 in Hu as (X & HX & HuX). exists X. split; [by apply (Hsame X Y u)|done].
    + intros (X & -> & HX). destruct (set_choose_L X (Hne1 X HX)) as (u & HuX).
      assert (contains G2 (f u) = true) as (Y & HY & HuY)%Hv2 by (apply Hv; exists u; split; [apply Hv1; eauto|done]).
      by rewrite <- (Hsame X Y u).
Qed.

(** ** C90: the verdict of is_bipartite. *)
Theorem C90_bipartite (H1 H2 : HashIter) (f : N → N) (G1 G2 : graph) : graph_wf G1 → graph_wf G2 → renames f G1 G2 →
  (∃ L R L' R', @is_bipartite H1 G1 = Ok (Bipartition L R) ∧ @is_bipartite H2 G2 = Ok (Bipartition L' R')) ∨
  (∃ c c', @is_bipartite H1 G1 = Ok (OddCycle c) ∧ @is_bipartite H2 G2 = Ok (OddCycle c')).
Proof.
  intros Hw1 Hw2 Hr. pose proof (renames_embeds f G1 G2 Hw1 Hr) as He.
  destruct (renames_inverse f G1 G2 Hw1 Hw2 Hr) as (g & Hr' & _). pose proof (renames_embeds g G2 G1 Hw2 Hr') as He'.
  assert ((∃ L R, @is_bipartite H1 G1 = Ok (Bipartition L R)) ↔ ∃ L R, @is_bipartite H2 G2 = Ok (Bipartition L R)) as Hiff.
  { rewrite (@C25_iff_two_colourable H1 G1 Hw1), (@C25_iff_two_colourable H2 G2 Hw2). split.
    - intros (c & Hc). exists (λ x, c (g x)). intros u v Huv. apply Hc, He', Huv.
    - intros (c & Hc). exists (λ x, c (f x)). intros u v Huv. apply Hc, He, Huv. }
  destruct (@C25_is_bipartite_total H1 G1 Hw1) as ([L R|c] & E1), (@C25_is_bipartite_total H2 G2 Hw2) as ([L' R'|c'] & E2).
  - left. eauto 10.
  - destruct (proj1 Hiff) as (? & ? & ?); [eauto|congruence].
  - destruct (proj2 Hiff) as (? & ? & ?); [eauto|congruence].
  - right. eauto.
Qed.

(** A graph that embeds into a bipartite one is bipartite. *)
Theorem C90_bipartite_embedding (H1 H2 : HashIter) (f : N → N) (G1 G2 : graph) L R : graph_wf G1 → graph_wf G2 → embeds f G1 G2 →
  @is_bipartite H2 G2 = Ok (Bipartition L R) → ∃ L' R', @is_bipartite H1 G1 = Ok (Bipartition L' R').
Proof.
  intros Hw1 Hw2 He Hb. apply (@C25_iff_two_colourable H1 G1 Hw1).
  destruct (proj1 (@C25_iff_two_colourable H2 G2 Hw2)) as (c & Hc); [eauto|].
  exists (λ x, c (f x)). intros u v Huv. apply Hc, He, Huv.
Qed.

(** ** C90: counts, neighbourhoods, induced subgraphs. *)
Theorem C90_counts (f : N → N) (G1 G2 : graph) : graph_wf G1 → graph_wf G2 → renames f G1 G2 →
  num_vertices G1 = num_vertices G2 ∧ num_edges G1 = num_edges G2 ∧ (∀ u, contains G1 u = true → degree G1 u = degree G2 (f u)) ∧
  ∀ u, contains G1 u = true → degrees G1 !! u = degrees G2 !! f u.
Proof.
  intros Hw1 Hw2 Hr. pose proof Hr as (Hi & Hv & Ha). pose proof (renames_embeds f G1 G2 Hw1 Hr) as He.
  assert (∀ u, contains G1 u = true → degree G1 u = degree G2 (f u)) as Hdeg by (by apply renames_degree).
  split_and!; [| |done|].
  - rewrite (wf_num_vertices _ Hw1), (wf_num_vertices _ Hw2), <- (fmap_length f (vertices G1)).
    apply Permutation_length, NoDup_Permutation; [|apply Hw2|].
    + apply NoDup_fmap_2_strong; [|apply Hw1]. intros x y Hx%(wf_vertices _ Hw1) Hy%(wf_vertices _ Hw1). by apply Hi.
    + intros x. rewrite elem_of_list_fmap. rewrite (wf_vertices _ Hw2). unfold vtx. rewrite Hv. setoid_rewrite (wf_vertices _ Hw1). unfold vtx. naive_solver.
  - destruct (renames_inverse f G1 G2 Hw1 Hw2 Hr) as (g & Hr' & _).
    apply Nat.le_antisymm; [by apply (embed_num_edges f)|]. apply (embed_num_edges g); [done..|]. by apply renames_embeds.
  - intros u Hu. rewrite !degrees_spec by done. rewrite Hu, (proj2 (Hv (f u))) by eauto. by rewrite Hdeg.
Qed.

Theorem C90_neighbourhoods (H1 H2 : HashIter) (f : N → N) (G1 G2 : graph) (X : list N) : graph_wf G1 → graph_wf G2 → renames f G1 G2 →
  (∀ v, v ∈ X → contains G1 v = true) →
  (∃ A, @neighbourhood H1 G1 X = Ok A ∧ @neighbourhood H2 G2 (f <$> X) = Ok (set_map f A)) ∧
  (∃ A, closed_neighbourhood G1 X = Ok A ∧ closed_neighbourhood G2 (f <$> X) = Ok (set_map f A)) ∧
  ∀ r, ∃ A, @r_neighbourhood H1 G1 X r = Ok A ∧ @r_neighbourhood H2 G2 (f <$> X) r = Ok (set_map f A).
Proof.
  intros Hw1 Hw2 Hr HX. pose proof Hr as (Hi & Hv & Ha). pose proof (renames_embeds f G1 G2 Hw1 Hr) as He.
  destruct (renames_inverse f G1 G2 Hw1 Hw2 Hr) as (g & Hr' & Hgf & Hfg). pose proof (renames_embeds g G2 G1 Hw2 Hr') as He'.
  assert (∀ v, v ∈ f <$> X → contains G2 v = true) as HX2.
  { intros x (v & -> & Hx)%elem_of_list_fmap. apply Hv. eauto. }
  assert (∀ v x, v ∈ X → adjacent G2 (f v) x = true → ∃ u, x = f u ∧ contains G1 u = true ∧ adjacent G1 v u = true) as Hback.
  { intros v x Hx Hadj. pose proof Hadj as (u & Hu & ->)%(wf_adj_sym _ Hw2)%(wf_adj_vtx _ Hw2)%Hv.
    exists u. split_and!; [done|done|]. rewrite Ha; auto. }
  assert (∀ u, contains G1 u = true → f u ∈ f <$> X → u ∈ X) as HinX.
  { intros u Hu (v & Hfv & Hx)%elem_of_list_fmap. apply Hi in Hfv; [by subst|done|auto]. }
  split_and!.
  - destruct (@C11_neighbourhood H1 G1 X Hw1 HX) as (A & -> & HA), (@C11_neighbourhood H2 G2 _ Hw2 HX2) as (B & -> & HB).
    exists A. split; [done|]. f_equal. apply set_eq. intros x. rewrite HB, elem_of_map. split.
    + intros (Hn & w & (v & -> & Hx)%elem_of_list_fmap & Hadj). destruct (Hback v x Hx Hadj) as (u & -> & Hu & Hvu).
      exists u. split; [done|]. apply HA. split; [|eauto]. intros HuX. apply Hn. by apply elem_of_list_fmap_1.
    + intros (u & -> & [Hn (v & Hx & Hadj)]%HA). split.
      * intros Hfu. apply Hn, HinX; [|done]. apply (wf_adj_sym _ Hw1) in Hadj. by apply (wf_adj_vtx _ Hw1 u v).
      * exists (f v). split; [by apply elem_of_list_fmap_1|by apply He].
  - destruct (C11_closed_neighbourhood G1 X Hw1 HX) as (A & -> & HA), (C11_closed_neighbourhood G2 _ Hw2 HX2) as (B & -> & HB).
    exists A. split; [done|]. f_equal. apply set_eq. intros x. rewrite HB, elem_of_map. split.
    + intros [(v & -> & Hx)%elem_of_list_fmap|(w & (v & -> & Hx)%elem_of_list_fmap & Hadj)].
      * exists v. split; [done|]. apply HA. by left.
      * destruct (Hback v x Hx Hadj) as (u & -> & Hu & Hvu). exists u. split; [done|]. apply HA. eauto.
    + intros (u & -> & [Hx|(v & Hx & Hadj)]%HA); [left; by apply elem_of_list_fmap_1|].
      right. exists (f v). split; [by apply elem_of_list_fmap_1|by apply He].
  - intros r. destruct (@C12_r_neighbourhood H1 G1 X r Hw1 HX) as (A & -> & HA), (@C12_r_neighbourhood H2 G2 _ r Hw2 HX2) as (B & -> & HB).
    exists A. split; [done|]. f_equal. apply set_eq. intros x. rewrite HB, elem_of_map. split.
    + intros (w & n & (v & -> & Hx)%elem_of_list_fmap & Hn & Hst). fold (adj G2) in Hst.
      exists (g x). assert (vtx G2 x) as Hxv by (eapply (walk_vtx G2 n (f v)); [done|apply HX2; by apply elem_of_list_fmap_1|exact Hst]).
      split; [by rewrite Hfg|]. apply HA. exists v, n. split_and!; [done|done|].
      apply (embed_nsteps g G2 G1 n _ _ He') in Hst. rewrite Hgf in Hst by auto. exact Hst.
    + intros (u & -> & (v & n & Hx & Hn & Hst)%HA). exists (f v), n. split_and!; [by apply elem_of_list_fmap_1|done|].
      by apply (embed_nsteps f G1 G2 n _ _ He).
Qed.

Theorem C90_subgraph (H1 H2 : HashIter) (f : N → N) (G1 G2 : graph) (X : list N) : graph_wf G1 → graph_wf G2 → renames f G1 G2 →
  (∀ v, v ∈ X → contains G1 v = true) →
  ∃ h1 h2, @subgraph H1 G1 X = Ok h1 ∧ @subgraph H2 G2 (f <$> X) = Ok h2 ∧ renames f (@eg_graph H1 h1) (@eg_graph H2 h2).
Proof.
  intros Hw1 Hw2 Hr HX. pose proof Hr as (Hi & Hv & Ha).
  assert (∀ v, v ∈ f <$> X → contains G2 v = true) as HX2.
  { intros x (v & -> & Hx)%elem_of_list_fmap. apply Hv. eauto. }
  destruct (@C10_subgraph H1 G1 X Hw1 HX) as (h1 & -> & Hr1 & HV1 & HE1), (@C10_subgraph H2 G2 _ Hw2 HX2) as (h2 & -> & Hr2 & HV2 & HE2).
  exists h1, h2. split_and!; [done|done|]. split_and!.
  - intros u v Hu%HV1 Hvv%HV1. apply Hi; auto.
  - intros x. cbn. rewrite HV2. rewrite elem_of_list_fmap. setoid_rewrite HV1. naive_solver.
  - intros u v Hu%HV1 Hvv%HV1. cbn. 
    apply eq_true_iff_eq.
    rewrite HE1, HE2, Ha by auto. split; intros (_ & _ & ?); split_and!; try done; by apply elem_of_list_fmap_1.
Qed.

(** ** C90: histories.  Renaming every label in a sequence of edits renames the graph, and every call
    reports the same change. *)
Theorem C90_history (H1 H2 : HashIter) (f : N → N) (os : list edit_op) : Inj (=) (=) f →
  ∃ g1 g2 bs, @eg_run H1 eg_new os = Ok (g1, bs) ∧ @eg_run H2 eg_new (rename_op f <$> os) = Ok (g2, bs) ∧
    renames f (@eg_graph H1 g1) (@eg_graph H2 g2).
Proof.
  intros Hf. destruct (@C01_editgraph_refines H1 os) as (g1 & Hg1 & HV1 & HE1), (@C01_editgraph_refines H2 (rename_op f <$> os)) as (g2 & Hg2 & HV2 & HE2).
  destruct (arenames_run f os _ _ (arenames_empty f)) as [Hren Hbs]. exists g1, g2, (a_run a_empty os).2. split_and!; [done|by rewrite Hg2, Hbs|].
  split_and!.
  - intros u v _ _. apply (inj f).
  - intros x. cbn. rewrite HV2, (proj1 Hren). by setoid_rewrite HV1.
  - intros u v _ _. cbn. pose proof (HE1 u v) as A1. pose proof (HE2 (f u) (f v)) as A2. unfold a_adj in A1, A2.
    rewrite (arenames_ae f _ _ u v Hren), <- A1 in A2. by apply eq_true_iff_eq.
Qed.

(** ** C90: operations that combine two graphs on the same labels. *)
Theorem C90_operations (H1 H2 : HashIter) (f : N → N) (G1 G2 K1 K2 : graph) : Inj (=) (=) f →
  graph_wf G1 → graph_wf G2 → graph_wf K1 → graph_wf K2 → renames f G1 G2 → renames f K1 K2 →
  (∃ h1 h2, invert G1 = Ok h1 ∧ invert G2 = Ok h2 ∧ renames f (@eg_graph H1 h1) (@eg_graph H2 h2)) ∧
  (∃ h1 h2, merge_graphs G1 K1 = Ok h1 ∧ merge_graphs G2 K2 = Ok h2 ∧ renames f (@eg_graph H1 h1) (@eg_graph H2 h2)) ∧
  (∃ h1 h2, intersect_graphs G1 K1 = Ok h1 ∧ intersect_graphs G2 K2 = Ok h2 ∧ renames f (@eg_graph H1 h1) (@eg_graph H2 h2)) ∧
  compare_subgraph G2 K2 = compare_subgraph G1 K1.
Proof.
  intros Hf HG1 HG2 HK1 HK2 HG HK.
  pose proof (λ u, renames_contains_all f G1 G2 u HG) as Gc. pose proof (λ u v, renames_adjacent_all f G1 G2 u v HG1 HG2 HG) as Ga.
  pose proof (λ u, renames_contains_all f K1 K2 u HK) as Kc. pose proof (λ u v, renames_adjacent_all f K1 K2 u v HK1 HK2 HK) as Ka.
  assert (∀ x, contains G2 x = true → ∃ u, x = f u) as Go by (intros x (u & _ & ->)%(proj1 (proj2 HG)); eauto).
  assert (∀ x, contains K2 x = true → ∃ u, x = f u) as Ko by (intros x (u & _ & ->)%(proj1 (proj2 HK)); eauto).
  assert (∀ h1 h2, (∀ u, eg_contains h2 (f u) = true ↔ eg_contains h1 u = true) → (∀ x, eg_contains h2 x = true → ∃ u, x = f u) →
    (∀ u v, eg_adjacent h2 (f u) (f v) = true ↔ eg_adjacent h1 u v = true) → renames f (@eg_graph H1 h1) (@eg_graph H2 h2)) as Hmk.
  { intros h1 h2 HV Hout HE. split_and!; [intros u v _ _; apply (inj f)| |].
    - intros x. cbn. split; [|intros (u & Hu & ->); by apply HV]. intros Hx. destruct (Hout x Hx) as [u ->]. exists u. by rewrite <- HV.
    - intros u v _ _. cbn. specialize (HE u v). by apply eq_true_iff_eq. }
  split_and!.
  - destruct (C27_invert G1 HG1) as (h1 & -> & _ & HV1 & HE1), (C27_invert G2 HG2) as (h2 & -> & _ & HV2 & HE2).
    exists h1, h2. split_and!; [done|done|]. apply Hmk.
    + intros u. by rewrite HV1, HV2, Gc.
    + intros x Hx. by apply Go, HV2.
    + intros u v. rewrite HE1, HE2, !Gc, Ga. split; intros (? & ? & Hn & ?); split_and!; try done; by intros ?%(inj f)||congruence.
  - destruct (C28_merge G1 K1 HG1 HK1) as (h1 & -> & _ & HV1 & HE1), (C28_merge G2 K2 HG2 HK2) as (h2 & -> & _ & HV2 & HE2).
    exists h1, h2. split_and!; [done|done|]. apply Hmk.
    + intros u. by rewrite HV1, HV2, Gc, Kc.
    + intros x [Hx|Hx]%HV2; auto.
    + intros u v. by rewrite HE1, HE2, Ga, Ka.
  - destruct (C29_intersect G1 K1 HG1 HK1) as (h1 & -> & _ & HV1 & HE1), (C29_intersect G2 K2 HG2 HK2) as (h2 & -> & _ & HV2 & HE2).
    exists h1, h2. split_and!; [done|done|]. apply Hmk.
    + intros u. by rewrite HV1, HV2, Gc, Kc.
    + intros x [Hx _]%HV2. auto.
    + intros u v. by rewrite HE1, HE2, Ga, Ka.
  - destruct (C33_compare G1 K1 HG1 HK1) as (r1 & -> & A1 & A2 & A3 & A4), (C33_compare G2 K2 HG2 HK2) as (r2 & -> & B1 & B2 & B3 & B4).
    f_equal.
    assert (∀ A1 A2 B1 B2 : graph, graph_wf A2 → (∀ u, contains A2 (f u) = contains A1 u) → (∀ u, contains B2 (f u) = contains B1 u) →
      (∀ u v, adjacent A2 (f u) (f v) = adjacent A1 u v) → (∀ u v, adjacent B2 (f u) (f v) = adjacent B1 u v) →
      (∀ x, contains A2 x = true → ∃ u, x = f u) → part_of A2 B2 ↔ part_of A1 B1) as Hpart.
    { clear -Hf. intros A1 A2 B1 B2 HA2 Ac Bc Aa Ba Ao. split; intros [PV PE]; split.
      - intros u Hu. rewrite <- Bc. apply PV. by rewrite Ac.
      - intros u v Huv. rewrite <- Ba. apply PE. by rewrite Aa.
      - intros x Hx. destruct (Ao x Hx) as [u ->]. rewrite Bc. apply PV. by rewrite <- Ac.
      - intros x y Hxy. pose proof (wf_adj_vtx _ HA2 x y Hxy) as Hx. pose proof (wf_adj_vtx _ HA2 y x (wf_adj_sym _ HA2 x y Hxy)) as Hy.
        destruct (Ao x Hx) as [u ->], (Ao y Hy) as [v ->]. rewrite Ba. apply PE. by rewrite <- Aa. }
    pose proof (Hpart G1 G2 K1 K2 HG2 Gc Kc Ga Ka Go) as Hp. pose proof (Hpart K1 K2 G1 G2 HK2 Kc Gc Ka Ga Ko) as Hq.
    fold (part_of G1 K1) (part_of K1 G1) in A1, A2, A3, A4. fold (part_of G2 K2) (part_of K2 G2) in B1, B2, B3, B4.
    generalize dependent (part_of G1 K1). generalize dependent (part_of K1 G1). generalize dependent (part_of G2 K2). generalize dependent (part_of K2 G2).
    clear. intros. destruct r1, r2; try done; exfalso; naive_solver.
Qed.

(** ** C90: EditGraph::normalize only renames, so the original graph has the same bounds and core numbers. *)
Theorem C90_normalize (H1 H2 : HashIter) (g : editgraph) : @eg_reachable H1 g → (∀ u, eg_adjacent g u u = false) →
  ∃ h m lo up o1 o2 c1 c2, @eg_normalize H1 g = Ok (h, m) ∧
    @degeneracy H1 (@eg_graph H1 h) = Ok (lo, up, o1, c1) ∧ @degeneracy H2 (@eg_graph H2 g) = Ok (lo, up, o2, c2) ∧
    ∀ i u, m !! i = Some u → c2 !! u = c1 !! i.
Proof.
  intros Hg Hl. destruct (@C14_normalize H1 g Hg) as (h & m & Hn & Hh & Hm & Hgm & Hmono & Hhc & Hadj & _).
  pose proof (@C10_reachable_wf H1 h Hh) as Hwh. pose proof (@C10_reachable_wf H2 g (reachable_any H1 H2 g Hg)) as Hwg.
  set (f := λ i, default 0%N (m !! i)).
  assert (∀ i, eg_contains h i = true → ∃ u, m !! i = Some u ∧ f i = u) as Hfi.
  { intros i Hi. apply Hhc, Hm in Hi as [u Hu]. exists u. split; [done|]. unfold f. by rewrite Hu. }
  assert (renames f (@eg_graph H1 h) (@eg_graph H2 g)) as Hren.
  { split_and!.
    - intros i j Hi Hj Hij. destruct (Hfi i Hi) as (u & Hu & Hfu), (Hfi j Hj) as (v & Hv & Hfv). assert (u = v) as <- by congruence.
      destruct (N.lt_trichotomy i j) as [Hlt|[?|Hlt]]; [|done|].
      + pose proof (Hmono i j u u Hu Hv Hlt). lia.
      + pose proof (Hmono j i u u Hv Hu Hlt). lia.
    - intros x. cbn. rewrite Hgm. split.
      + intros (i & Hi). exists i. split; [apply Hhc, Hm; eauto|]. unfold f. by rewrite Hi.
      + intros (i & Hi & ->). destruct (Hfi i Hi) as (u & Hu & ->). eauto.
    - intros i j Hi Hj. destruct (Hfi i Hi) as (u & Hu & ->), (Hfi j Hj) as (v & Hv & ->). cbn. by apply Hadj. }
  assert (loopless (@eg_graph H1 h)) as Hlh.
  { intros i Hi. pose proof (wf_adj_vtx _ Hwh i i Hi) as Hv. destruct (Hfi i Hv) as (u & Hu & _). unfold adj in Hi. cbn in Hi.
    rewrite (Hadj i i u u Hu Hu) in Hi. by rewrite Hl in Hi. }
  destruct (C90_degeneracy H1 H2 f _ _ Hwh Hwg Hlh Hren) as (lo & up & o1 & o2 & c1 & c2 & Hd1 & Hd2 & Hc & _).
  exists h, m, lo, up, o1, o2, c1, c2. split_and!; [done..|]. intros i u Hi. rewrite <- Hc; [unfold f; by rewrite Hi|]. apply Hhc, Hm. eauto.
Qed.

(** ** Example: a triangle with a tail and a separate edge, with label x replaced by 10x+7; the hash
    order is reversed for the second graph. *)
Definition ex_ren (x : N) : N := (10 * x + 7)%N.
Definition ex_ren_edges : list (N * N) := (λ e : N * N, (ex_ren e.1, ex_ren e.2)) <$> ex_det2_edges.
Lemma ex_ren_inj : Inj (=) (=) ex_ren.
Proof. intros x y. unfold ex_ren. lia. Qed.
Example ex_C90_hyps : graph_wf (@eg_graph std_iter (ex_edit ex_det2_edges)) ∧ graph_wf (@eg_graph rev_iter (ex_edit ex_ren_edges)) ∧
  loopless (@eg_graph std_iter (ex_edit ex_det2_edges)) ∧
  renames ex_ren (@eg_graph std_iter (ex_edit ex_det2_edges)) (@eg_graph rev_iter (ex_edit ex_ren_edges)).
Proof.
  destruct ex_C87_hyps as (Hw & _ & Hl).
  destruct (C90_history std_iter std_iter ex_ren (ex_ops_of ex_det2_edges) ex_ren_inj) as (g1 & g2 & bs & Hg1 & Hg2 & Hren).
  assert (rename_op ex_ren <$> ex_ops_of ex_det2_edges = ex_ops_of ex_ren_edges) as Hops by reflexivity. rewrite Hops in Hg2.
  assert (ex_edit ex_det2_edges = g1) as E1 by (unfold ex_edit; by rewrite Hg1).
  assert (ex_edit ex_ren_edges = g2) as E2 by (unfold ex_edit; by rewrite Hg2). split_and!; [exact Hw| |exact Hl|].
  - apply (@C10_reachable_wf rev_iter), (reachable_any std_iter). rewrite E2. by do 2 eexists.
  - rewrite E1, E2. exact Hren.
Qed.
Example ex_C90 :
  match @degeneracy std_iter (@eg_graph std_iter (ex_edit ex_det2_edges)), @degeneracy rev_iter (@eg_graph rev_iter (ex_edit ex_ren_edges)) with
  | Ok (lo1, up1, o1, c1), Ok (lo2, up2, o2, c2) =>
      (lo1, up1) = (lo2, up2) ∧ up1 = 2 ∧ c1 !! 3%N = Some 1 ∧ c2 !! 37%N = Some 1 ∧ c1 !! 1%N = Some 2 ∧ c2 !! 17%N = Some 2
  | _, _ => False
  end.
Proof. vm_compute. split_and!; reflexivity. Qed.
Example ex_C90_components :
  match @components std_iter (@eg_graph std_iter (ex_edit ex_det2_edges)), @components rev_iter (@eg_graph rev_iter (ex_edit ex_ren_edges)) with
  | Ok cs1, Ok cs2 => length cs1 = 2 ∧ bool_decide (list_to_set cs2 = (set_map (set_map ex_ren : gset N → gset N) (list_to_set cs1 : gset (gset N)) : gset (gset N))) = true
  | _, _ => False
  end.
Proof. vm_compute. split; reflexivity. Qed.
(** An embedding that is not a renaming: a path into the triangle with a tail. *)
Example ex_C90_embeds : embeds (λ x, x) (@eg_graph std_iter (ex_edit [(0, 1); (1, 2)]%N)) (@eg_graph std_iter (ex_edit ex_det2_edges)).
Proof.
  destruct (ex_edit_spec [(0, 1); (1, 2)]%N) as [Hw1 HE1], (ex_edit_spec ex_det2_edges) as [Hw2 HE2]. split_and!; [done| |].
  - intros u Hu. apply (wf_vertices _ Hw1) in Hu. change (u ∈ [0; 1; 2]%N) in Hu || (vm_compute in Hu).
    repeat (apply elem_of_cons in Hu as [->|Hu]; [vm_compute; reflexivity|]). by apply elem_of_nil in Hu.
  - intros u v Huv. apply HE2. apply HE1 in Huv. clear -Huv.
    assert ([(0, 1); (1, 2)]%N ⊆ ex_det2_edges) as Hsub by (intros e He; do 2 (apply elem_of_cons in He as [->|He]; [unfold ex_det2_edges; repeat constructor|]); by apply elem_of_nil in He).
    destruct Huv as [Huv|Huv]; [left|right]; by apply Hsub.
Qed.

Print Assumptions C90_degeneracy.
Print Assumptions C90_degeneracy_embedding.
Print Assumptions C90_components.
Print Assumptions C90_bipartite.
Print Assumptions C90_bipartite_embedding.
Print Assumptions C90_counts.
Print Assumptions C90_neighbourhoods.
Print Assumptions C90_subgraph.
Print Assumptions C90_history.
Print Assumptions C90_operations.
Print Assumptions C90_normalize.
