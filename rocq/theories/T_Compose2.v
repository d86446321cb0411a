(** Property theorem C106: what the algorithms (algorithms/graph.rs:41-223) return on the complement, the union, the intersection and the
    lexicographic product of operations.rs:20-111, in terms of what they return on the parts. *)
From Verif Require Import Base Spec M_Graph M_Iterators M_EditGraph M_Algorithms M_Operations S_Graph
  P_EditGraph P_EditGraph2 P_Unions P_Degeneracy P_DegenGraph P_Certify T_EditGraph T_Operations T_Algorithms P_Iso P_Compose P_Edits T_Iso Examples.

Section compose2.
Context {Hi : HashIter}.

Lemma connected_rtc (G : graph) X : graph_wf G → components G = Ok [X] → ∀ u v, vtx G u → vtx G v → rtc (adj G) u v.
Proof.
  intros HG EX u v Hu Hw. destruct (C22_components G HG) as (cs & E & _ & _ & _ & Hv & Hr). rewrite EX in E. injection E as <-.
  apply Hr; [done|]. apply Hv in Hu as (? & ->%elem_of_list_singleton & ?), Hw as (? & ->%elem_of_list_singleton & ?).
  exists X. split; [by apply elem_of_list_singleton|done].
Qed.

(** ** The complement of a disconnected graph is connected *)
Theorem C106_invert_connected (G : graph) cs : graph_wf G → components G = Ok cs → 2 ≤ length cs →
  ∃ h X, invert G = Ok h ∧ components (eg_graph h) = Ok [X] ∧ ∀ v, v ∈ X ↔ contains G v = true.
Proof.
  intros HG Ecs Hlen. destruct (C27_invert G HG) as (h & Eh & Rh & Vh & Ah). pose proof (C10_reachable_wf h Rh) as Hh.
  destruct (C22_components G HG) as (cs' & E' & Hnd & Hne & Hdj & Hv & Hr). rewrite Ecs in E'. injection E' as <-.
  destruct cs as [|A [|B cs]]; [cbn in Hlen; lia|cbn in Hlen; lia|]. clear Hlen.
  assert (A ∈ A :: B :: cs) as HA by (by left). assert (B ∈ A :: B :: cs) as HB by (right; by left).
  assert (A ≠ B) as HAB by (apply NoDup_cons in Hnd as [HnA _]; intros ->; apply HnA; by left).
  destruct (set_choose_L A (Hne A HA)) as [a Ha]. destruct (set_choose_L B (Hne B HB)) as [b Hb].
  assert (vtx G a) as HaG by (apply Hv; eauto). assert (vtx G b) as HbG by (apply Hv; eauto).
  assert (∀ x y, vtx G x → vtx G y → ¬ rtc (adj G) x y → adj (eg_graph h) x y) as Hfar.
  { intros x y Hx Hy Hn. apply (Ah x y). split_and!; [done|done|intros ->; by apply Hn|]. apply not_true_is_false. intros Hxy. by apply Hn, rtc_once. }
  assert (¬ rtc (adj G) a b) as Hab.
  { intros (Z & HZ & HaZ & HbZ)%(Hr a b HaG). destruct (decide (Z = A)) as [->|Hn]; [exact (Hdj A B HA HB HAB b HbZ Hb)|exact (Hdj Z A HZ HA Hn a HaZ Ha)]. }
  destruct (components_one (eg_graph h) a Hh) as (X & EX & HX).
  - by apply Vh.
  - intros y Hy%Vh. destruct (decide (y ∈ A)) as [HyA|HyA].
    + assert (rtc (adj G) a y) as Hay by (apply (Hr a y HaG); eauto). eapply rtc_l; [apply (Hfar a b); done|]. apply rtc_once, Hfar; [done|done|].
      intros Hby. apply Hab. etrans; [exact Hay|]. by apply rtc_sym'.
    + apply rtc_once, Hfar; [done|done|]. intros (Z & HZ & HaZ & HyZ)%(Hr a y HaG).
      destruct (decide (Z = A)) as [->|Hn]; [done|exact (Hdj Z A HZ HA Hn a HaZ Ha)].
  - exists h, X. split_and!; [done|done|]. intros v. rewrite <- (Vh v). apply HX.
Qed.

(** ** Union on the same labels *)
Lemma before_take (order : list N) x i : order !! i = Some x → NoDup order → ∀ y, y ∈ take i order ↔ before order y x.
Proof.
  intros Hx Hnd y. split.
  - intros [j Hj]%elem_of_list_lookup. pose proof (lookup_lt_Some _ _ _ Hj) as Hl. rewrite take_length in Hl.
    rewrite lookup_take in Hj by lia. exists j, i. unfold pos. split_and!; [done|done|lia].
  - intros (j & k & Hj & Hk & Hjk). unfold pos in *. pose proof (NoDup_lookup _ _ _ _ Hnd Hk Hx) as ->.
    apply elem_of_list_lookup. exists j. by rewrite lookup_take.
Qed.
(** The neighbours before [x] in an order. *)
Definition outs (G : graph) (order : list N) (x : N) : gset N :=
  list_to_set (filter (λ y, y ∈ take (default 0 (fst <$> list_find (x =.) order)) order) (if decide (x ∈ order) then nbrs G x else [])).
Lemma outs_spec (G : graph) lo up order core : graph_wf G → loopless G → degeneracy G = Ok (lo, up, order, core) → up ≤ 129 →
  (∀ x, size (outs G order x) ≤ up) ∧ ∀ x y, adj G x y → y ∈ outs G order x ∨ x ∈ outs G order y.
Proof.
  intros HG Hl Hd Hup. destruct (C23_degeneracy_order G HG Hl) as (lo' & up' & o' & c' & D' & Hnd & Ho & Hc). rewrite Hd in D'. injection D' as <- <- <- <-.
  assert (∀ x, x ∈ order → ∀ y, y ∈ outs G order x ↔ adj G x y ∧ before order y x) as Hout.
  { intros x Hx y. unfold outs. rewrite decide_True by done. rewrite elem_of_list_to_set, elem_of_list_filter.
    destruct (nbrs_spec G x HG (proj1 (Ho x) Hx)) as (_ & _ & Hn & _). rewrite Hn.
    destruct (list_find (x =.) order) as [[i z]|] eqn:E.
    - apply list_find_Some in E as (Ei & <- & _). cbn. rewrite (before_take order x i Ei Hnd). tauto.
    - exfalso. apply list_find_None in E. rewrite Forall_forall in E. by apply (E x). }
  split.
  - intros x. destruct (decide (x ∈ order)) as [Hx|Hx]; [|unfold outs; rewrite decide_False by done; rewrite filter_nil; change (size (∅ : gset N) ≤ up); rewrite size_empty; lia].
    destruct (Hc x) as [_ Hcx]. destruct Hcx as [c Hcx]; [by apply Ho|].
    destruct (C24_left_degree_partial G lo up order core x c (elements (outs G order x)) HG Hl Hd Hcx) as (H1 & H2 & _).
    + split; [apply NoDup_elements|]. intros y Hy%elem_of_elements. by apply Hout.
    + change (size (outs G order x)) with (length (elements (outs G order x))). specialize (H2 ltac:(lia)). lia.
  - intros x y Hxy. assert (x ∈ order) as Hx by (apply Ho; by eapply (wf_adj_vtx _ HG)).
    pose proof (wf_adj_sym _ HG _ _ Hxy) as Hyx. assert (y ∈ order) as Hy by (apply Ho; by eapply (wf_adj_vtx _ HG)).
    destruct (ord_total order x y Hx Hy) as [Hb|Hb]; [intros ->; by apply (Hl y)|right; by apply Hout|left; by apply Hout].
Qed.

Theorem C106_merge_degeneracy (G H : graph) lo1 up1 o1 c1 lo2 up2 o2 c2 : graph_wf G → graph_wf H → loopless G → loopless H →
  degeneracy G = Ok (lo1, up1, o1, c1) → degeneracy H = Ok (lo2, up2, o2, c2) →
  ∃ h lo up o c, merge_graphs G H = Ok h ∧ degeneracy (eg_graph h) = Ok (lo, up, o, c) ∧ up1 ≤ up ∧ up2 ≤ up ∧
    (up1 ≤ 129 → up2 ≤ 129 → up ≤ 2 * (up1 + up2)) ∧
    (∀ v a, c1 !! v = Some a → ∃ b, c !! v = Some b ∧ a ≤ b) ∧ (∀ v a, c2 !! v = Some a → ∃ b, c !! v = Some b ∧ a ≤ b).
Proof.
  intros HG HH LG LH D1 D2. destruct (C28_merge G H HG HH) as (h & Eh & Rh & Vh & Ah). pose proof (C10_reachable_wf h Rh) as Hh.
  assert (loopless (eg_graph h)) as Lh by (intros u [Hu|Hu]%Ah; [by apply (LG u)|by apply (LH u)]).
  destruct (C90_degeneracy_embedding Hi Hi (λ x, x) G (eg_graph h) HG Hh Lh) as (l1 & u1 & r1 & k1 & lo & up & o & c & E1 & E & _ & Hu1 & Hk1).
  { split_and!; [done|intros u Hu; apply Vh; by left|intros u v Huv; apply Ah; by left]. }
  rewrite D1 in E1. injection E1 as <- <- <- <-.
  destruct (C90_degeneracy_embedding Hi Hi (λ x, x) H (eg_graph h) HH Hh Lh) as (l2 & u2 & r2 & k2 & lo' & up' & o' & c' & E2 & E' & _ & Hu2 & Hk2).
  { split_and!; [done|intros u Hu; apply Vh; by right|intros u v Huv; apply Ah; by right]. }
  rewrite D2 in E2. injection E2 as <- <- <- <-. rewrite E in E'. injection E' as <- <- <- <-.
  exists h, lo, up, o, c. split_and!; [done|done|done|done| |done|done]. intros B1 B2.
  destruct (decide (up = 0)) as [->|Hup0]; [lia|].
  destruct (outs_spec G lo1 up1 o1 c1 HG LG D1 B1) as [S1 O1]. destruct (outs_spec H lo2 up2 o2 c2 HH LH D2 B2) as [S2 O2].
  assert (∃ v, vtx (eg_graph h) v) as Hex.
  { destruct (degeneracy_inv (eg_graph h) Hh Lh) as (s & Hs & HIv & Hin). rewrite E in Hs. injection Hs as _ Hup _ _.
    destruct (gi_num_last _ _ HIv) as [[_ Hz]|[v Hv]]; [congruence|]. exists v. apply Hin. apply (gi_core _ _ HIv). by eexists. }
  destruct (C24_lower_bound (eg_graph h) lo up o c Hh Lh E Hex) as (_ & S & HS & Hm & _).
  apply (out_degeneracy (λ x, outs G o1 x ∪ outs H o2 x) (adj (eg_graph h)) (up1 + up2) up S HS).
  - intros x _. rewrite size_union_alt. specialize (S1 x). specialize (S2 x).
    assert (size (outs H o2 x ∖ outs G o1 x) ≤ size (outs H o2 x)) by (apply subseteq_size; set_solver). lia.
  - intros x y [Hxy|Hxy]%Ah; [destruct (O1 x y Hxy)|destruct (O2 x y Hxy)]; rewrite !elem_of_union; tauto.
  - intros x Hx. destruct (Hm x Hx) as (_ & l & ? & ? & Hl). exists l. done.
Qed.

(** The components of the union are the finest partition coarser than those of the two graphs. *)
Theorem C106_merge_components (G H : graph) : graph_wf G → graph_wf H →
  ∃ h cs1 cs2 cs, merge_graphs G H = Ok h ∧ components G = Ok cs1 ∧ components H = Ok cs2 ∧ components (eg_graph h) = Ok cs ∧
    (∀ X, X ∈ cs1 ∨ X ∈ cs2 → ∃ Y, Y ∈ cs ∧ X ⊆ Y) ∧
    (∀ S : gset N, (∀ X, X ∈ cs1 ∨ X ∈ cs2 → X ⊆ S ∨ X ## S) → ∀ Y, Y ∈ cs → Y ⊆ S ∨ Y ## S).
Proof.
  intros HG HH. destruct (C28_merge G H HG HH) as (h & Eh & Rh & Vh & Ah). pose proof (C10_reachable_wf h Rh) as Hh.
  destruct (C22_components G HG) as (cs1 & E1 & _ & Hne1 & Hdj1 & Hv1 & Hr1). destruct (C22_components H HH) as (cs2 & E2 & _ & Hne2 & Hdj2 & Hv2 & Hr2).
  destruct (C22_components (eg_graph h) Hh) as (cs & E & _ & Hne & Hdj & Hv & Hr).
  exists h, cs1, cs2, cs. split_and!; [done|done|done|done| |].
  - assert (∀ (K : graph) (cK : list (gset N)) X, (∀ a b, adj K a b → adj (eg_graph h) a b) → (∀ v, vtx K v → vtx (eg_graph h) v) → X ∈ cK → X ≠ ∅ →
      (∀ v, vtx K v ↔ ∃ X, X ∈ cK ∧ v ∈ X) → (∀ u v, vtx K u → (∃ X, X ∈ cK ∧ u ∈ X ∧ v ∈ X) ↔ rtc (adj K) u v) → ∃ Y, Y ∈ cs ∧ X ⊆ Y) as Hgo.
    { intros K cK X Hsub HsubV HX HX0 HvK HrK. destruct (set_choose_L X HX0) as [a Ha]. assert (vtx K a) as HaK by (apply HvK; eauto).
      destruct (proj1 (Hv a) (HsubV a HaK)) as (Y & HY & HaY). exists Y. split; [done|]. intros b Hb.
      assert (rtc (adj (eg_graph h)) a b) as Hab by (apply (rtc_subrel (adj K)); [exact Hsub|apply HrK; eauto]).
      apply (Hr a b (HsubV a HaK)) in Hab as (Z & HZ & HaZ & HbZ). destruct (decide (Z = Y)) as [->|Hn]; [done|]. destruct (Hdj Z Y HZ HY Hn a HaZ HaY). }
    intros X [HX|HX].
    + apply (Hgo G cs1 X); [intros a b Hab; apply Ah; by left|intros v Hx; apply Vh; by left|done|by apply Hne1|done|done].
    + apply (Hgo H cs2 X); [intros a b Hab; apply Ah; by right|intros v Hx; apply Vh; by right|done|by apply Hne2|done|done].
  - intros S HS Y HY. assert (∀ a b, adj (eg_graph h) a b → a ∈ S → b ∈ S) as Hstep.
    { assert (∀ (K : graph) (cK : list (gset N)), graph_wf K → (∀ X, X ∈ cK → X ⊆ S ∨ X ## S) → (∀ u v, vtx K u → (∃ X, X ∈ cK ∧ u ∈ X ∧ v ∈ X) ↔ rtc (adj K) u v) →
        ∀ a b, adj K a b → a ∈ S → b ∈ S) as Hgo.
      { intros K cK HK Hsat HrK a b Hab HaS. pose proof (wf_adj_vtx _ HK _ _ Hab) as Ha. apply rtc_once, (HrK a b Ha) in Hab as (X & HX & HaX & HbX).
        destruct (Hsat X HX) as [Hs|Hs]; [by apply Hs|destruct (Hs a HaX HaS)]. }
      intros a b [Hab|Hab]%Ah; [apply (Hgo G cs1 HG); [intros X HX; apply HS; by left|done|done]|apply (Hgo H cs2 HH); [intros X HX; apply HS; by right|done|done]]. }
    assert (∀ a b, rtc (adj (eg_graph h)) a b → a ∈ S → b ∈ S) as Hwalk by (intros a b Hab; induction Hab; eauto).
    destruct (decide (Y ⊆ S)) as [?|Hn]; [by left|]. right. intros a HaY HaS. apply Hn. intros b HbY. apply (Hwalk a b); [|done].
    apply Hr; [apply Hv; eauto|eauto].
Qed.

Theorem C106_merge_bipartite (G H : graph) : graph_wf G → graph_wf H →
  ∃ h, merge_graphs G H = Ok h ∧ ((∃ L R, is_bipartite (eg_graph h) = Ok (Bipartition L R)) →
    (∃ L R, is_bipartite G = Ok (Bipartition L R)) ∧ (∃ L R, is_bipartite H = Ok (Bipartition L R))).
Proof.
  intros HG HH. destruct (C28_merge G H HG HH) as (h & Eh & Rh & Vh & Ah). exists h. split; [done|].
  rewrite (C25_iff_two_colourable (eg_graph h) (C10_reachable_wf h Rh)), (C25_iff_two_colourable G HG), (C25_iff_two_colourable H HH).
  intros (f & Hf). split; exists f; intros u v Huv; apply Hf, Ah; [by left|by right].
Qed.

(** ** Intersection on the same labels *)
Theorem C106_intersect (G H : graph) : graph_wf G → graph_wf H →
  ∃ h cs1 cs2 cs, intersect_graphs G H = Ok h ∧ components G = Ok cs1 ∧ components H = Ok cs2 ∧ components (eg_graph h) = Ok cs ∧
    (∀ Z, Z ∈ cs → ∃ X Y, X ∈ cs1 ∧ Y ∈ cs2 ∧ Z ⊆ X ∩ Y) ∧
    ((∃ L R, is_bipartite G = Ok (Bipartition L R)) ∨ (∃ L R, is_bipartite H = Ok (Bipartition L R)) →
     ∃ L R, is_bipartite (eg_graph h) = Ok (Bipartition L R)).
Proof.
  intros HG HH. destruct (C29_intersect G H HG HH) as (h & Eh & Rh & Vh & Ah). pose proof (C10_reachable_wf h Rh) as Hh.
  destruct (C22_components G HG) as (cs1 & E1 & _ & Hne1 & Hdj1 & Hv1 & Hr1). destruct (C22_components H HH) as (cs2 & E2 & _ & Hne2 & Hdj2 & Hv2 & Hr2).
  destruct (C22_components (eg_graph h) Hh) as (cs & E & _ & Hne & Hdj & Hv & Hr).
  exists h, cs1, cs2, cs. split_and!; [done|done|done|done| |].
  - intros Z HZ. destruct (set_choose_L Z (Hne Z HZ)) as [a Ha]. assert (vtx (eg_graph h) a) as Hah by (apply Hv; eauto).
    pose proof Hah as Hah'. apply Vh in Hah' as [HaG HaH]. destruct (proj1 (Hv1 a) HaG) as (X & HX & HaX). destruct (proj1 (Hv2 a) HaH) as (Y & HY & HaY).
    exists X, Y. split_and!; [done|done|]. intros b Hb. assert (rtc (adj (eg_graph h)) a b) as Hab by (apply (Hr a b Hah); eauto). apply elem_of_intersection. split.
    + assert (rtc (adj G) a b) as (X' & HX' & ? & ?)%(Hr1 a b HaG) by (apply (rtc_subrel (adj (eg_graph h))); [intros x y [? _]%Ah; done|done]).
      destruct (decide (X' = X)) as [->|Hn]; [done|]. destruct (Hdj1 X' X HX' HX Hn a); done.
    + assert (rtc (adj H) a b) as (X' & HX' & ? & ?)%(Hr2 a b HaH) by (apply (rtc_subrel (adj (eg_graph h))); [intros x y [_ ?]%Ah; done|done]).
      destruct (decide (X' = Y)) as [->|Hn]; [done|]. destruct (Hdj2 X' Y HX' HY Hn a); done.
  - rewrite (C25_iff_two_colourable (eg_graph h) Hh), (C25_iff_two_colourable G HG), (C25_iff_two_colourable H HH).
    intros [[f Hf]|[f Hf]]; exists f; intros u v [Hu Hw]%Ah; by apply Hf.
Qed.
Theorem C106_intersect_degeneracy (G H : graph) lo1 up1 o1 c1 : graph_wf G → graph_wf H → loopless G →
  degeneracy G = Ok (lo1, up1, o1, c1) →
  ∃ h h' lo up o c lo' up' o' c', intersect_graphs G H = Ok h ∧ degeneracy (eg_graph h) = Ok (lo, up, o, c) ∧ up ≤ up1 ∧
    (∀ v a, c !! v = Some a → ∃ b, c1 !! v = Some b ∧ a ≤ b) ∧
    intersect_graphs H G = Ok h' ∧ degeneracy (eg_graph h') = Ok (lo', up', o', c') ∧ up' = up ∧ ∀ v, c' !! v = c !! v.
Proof.
  intros HG HH LG D1. destruct (C29_intersect G H HG HH) as (h & Eh & Rh & Vh & Ah). destruct (C29_intersect H G HH HG) as (h' & Eh' & Rh' & Vh' & Ah').
  pose proof (C10_reachable_wf h Rh) as Hh. pose proof (C10_reachable_wf h' Rh') as Hh'.
  assert (loopless (eg_graph h)) as Lh by (intros u [Hu _]%Ah; by apply (LG u)).
  destruct (C90_degeneracy_embedding Hi Hi (λ x, x) (eg_graph h) G Hh HG LG) as (l1 & u1 & r1 & k1 & lo & up & o & c & E1 & E & _ & Hu1 & Hk1).
  { split_and!; [done|intros u Hu; by apply Vh|intros u v Huv; by apply Ah]. }
  rewrite D1 in E. injection E as <- <- <- <-.
  destruct (C90_degeneracy Hi Hi (λ x, x) (eg_graph h) (eg_graph h') Hh Hh' Lh) as (lo & up & p & q & c & c' & D & D' & Hc & _).
  { split_and!; [done| |].
    - intros x. change (eg_contains h' x = true ↔ ∃ u, eg_contains h u = true ∧ x = u). rewrite Vh'. split.
      + intros [? ?]. exists x. split; [by apply Vh|done].
      + intros (u & [? ?]%Vh & ->). done.
    - intros u v _ _. apply eq_true_iff_eq. change (eg_adjacent h u v = true ↔ eg_adjacent h' u v = true). rewrite Ah, Ah'. tauto. }
  rewrite E1 in D. injection D as <- <- <- <-.
  exists h, h', l1, u1, r1, k1, l1, u1, q, c'. split_and!; [done|done|done|done|done|done|done|]. intros v.
  destruct (contains (eg_graph h) v) eqn:Ev; [by apply Hc|].
  destruct (C23_degeneracy_order (eg_graph h) Hh Lh) as (? & ? & ? & ? & E2 & _ & _ & C2). rewrite E1 in E2. injection E2 as <- <- <- <-.
  destruct (C23_degeneracy_order (eg_graph h') Hh') as (? & ? & ? & ? & E3 & _ & _ & C3); [intros u [_ Hu]%Ah'; by apply (LG u)|]. rewrite D' in E3. injection E3 as <- <- <- <-.
  assert (k1 !! v = None) as ->. { destruct (k1 !! v) eqn:K; [|done]. exfalso. assert (vtx (eg_graph h) v) as Hx by (apply C2; eauto). unfold vtx in Hx. congruence. }
  destruct (c' !! v) eqn:K; [|done]. exfalso. assert (vtx (eg_graph h') v) as [Hx Hx']%Vh' by (apply C3; eauto).
  assert (contains (eg_graph h) v = true) as Hx2 by (by apply Vh). congruence.
Qed.

(** ** Lexicographic product *)
Theorem C106_lexicographic_bipartite (G H : graph) : graph_wf G → graph_wf H →
  (N.of_nat (num_vertices G * num_vertices H) <= 2 ^ 32)%N → (∃ u, contains G u = true) → (∃ v, contains H v = true) →
  ∃ h inv, lexicographic_product G H = Ok (h, inv) ∧
    ((∃ L R, is_bipartite (eg_graph h) = Ok (Bipartition L R)) ↔
     (∃ L R, is_bipartite G = Ok (Bipartition L R)) ∧ (∃ L R, is_bipartite H = Ok (Bipartition L R)) ∧
     ((∀ u v, adjacent G u v = false) ∨ (∀ u v, adjacent H u v = false))).
Proof.
  intros HG HH Hsz [u0 Hu0] [v0 Hv0]. destruct (C32_lexicographic_partial G H HG HH Hsz) as (h & inv & Eh & Rh & Hinv & Hinj & Vh & Ah).
  exists h, inv. split; [done|].
  rewrite (C25_iff_two_colourable (eg_graph h) (C10_reachable_wf h Rh)), (C25_iff_two_colourable G HG), (C25_iff_two_colourable H HH).
  assert (∀ K a b, graph_wf K → adj K a b → vtx K a ∧ vtx K b) as Hends.
  { intros K a b HK Hab. split; [by eapply (wf_adj_vtx _ HK)|]. apply (wf_adj_sym _ HK) in Hab. by eapply (wf_adj_vtx _ HK). }
  split.
  - intros (f & Hf).
    set (id := λ p, match list_find (λ q : N * (N * N), q.2 = p) (map_to_list inv) with Some (_, q) => q.1 | None => 0%N end).
    assert (∀ u v, contains G u = true → contains H v = true → inv !! id (u, v) = Some (u, v)) as Hid.
    { intros u v Hu Hv. destruct (proj2 (Hinv u v) (conj Hu Hv)) as (x & Hx). unfold id.
      destruct (list_find _ (map_to_list inv)) as [[i [y p]]|] eqn:E.
      - apply list_find_Some in E as (E & Hp & _). cbn in Hp |- *. subst p. apply elem_of_list_lookup_2, elem_of_map_to_list in E. done.
      - exfalso. apply list_find_None in E. rewrite Forall_forall in E. apply (E (x, (u, v))); [|done]. by apply elem_of_map_to_list. }
    assert (∀ a b, adj G a b → ∀ v, vtx H v → f (id (a, v)) ≠ f (id (b, v))) as F1.
    { intros a b Hab v Hv. destruct (Hends G a b HG Hab). apply Hf, Ah. exists a, v, b, v. split_and!; [by apply Hid|by apply Hid|by right]. }
    assert (∀ a b, adj H a b → ∀ u u', vtx G u → vtx G u' → f (id (u, a)) ≠ f (id (u', b))) as F2.
    { intros a b Hab u u' Hu Hu'. destruct (Hends H a b HH Hab). apply Hf, Ah. exists u, a, u', b. split_and!; [by apply Hid|by apply Hid|by left]. }
    split_and!.
    + exists (λ u, f (id (u, v0))). intros a b Hab. by apply F1.
    + exists (λ v, f (id (u0, v))). intros a b Hab. by apply F2.
    + destruct (decide (num_edges G = 0)) as [E0|E0].
      * left. intros u v. apply not_true_is_false. intros Huv. destruct (wf_num_edges _ HG) as (E & HE & Es). rewrite E0 in Es. symmetry in Es. apply size_empty_inv in Es.
        destruct (decide (u <= v)%N); [apply (not_elem_of_empty (C := gset (N * N)) (u, v)); apply Es, HE; done|]. apply (not_elem_of_empty (C := gset (N * N)) (v, u)); apply Es, HE. split; [lia|by apply (wf_adj_sym _ HG)].
      * right. intros a b. apply not_true_is_false. intros Hab. destruct (wf_num_edges _ HG) as (E & HE & Es).
        destruct (set_choose_or_empty E) as [[[u u'] Hu]|He]; [|rewrite Es in E0; apply E0; by apply size_empty_iff].
        apply HE in Hu as [_ Huu]. destruct (Hends G u u' HG Huu) as [Hu Hu']. destruct (Hends H a b HH Hab) as [Ha Hb].
        pose proof (F1 u u' Huu a Ha) as K1. pose proof (F2 a b Hab u u Hu Hu) as K2. pose proof (F2 a b Hab u' u Hu' Hu) as K3.
        destruct (f (id (u, a))), (f (id (u', a))), (f (id (u, b))); done.
  - intros ((f1 & H1) & (f2 & H2) & [Hno|Hno]).
    + exists (λ x, match inv !! x with Some (u, v) => f2 v | None => false end).
      intros x y (u & v & u' & v' & -> & -> & [Hvv|[-> Huu]])%Ah; [by apply H2|]. by rewrite Hno in Huu.
    + exists (λ x, match inv !! x with Some (u, v) => f1 u | None => false end).
      intros x y (u & v & u' & v' & -> & -> & [Hvv|[-> Huu]])%Ah; [by rewrite Hno in Hvv|by apply H1].
Qed.

Theorem C106_lexicographic_connected (G H : graph) Y : graph_wf G → graph_wf H →
  (N.of_nat (num_vertices G * num_vertices H) <= 2 ^ 32)%N → (∃ u, contains G u = true) → (∃ v w, v ≠ w ∧ adjacent H v w = true) →
  components H = Ok [Y] →
  ∃ h inv Z, lexicographic_product G H = Ok (h, inv) ∧ components (eg_graph h) = Ok [Z] ∧ ∀ x, x ∈ Z ↔ is_Some (inv !! x).
Proof.
  intros HG HH Hsz (u0 & Hu0) (v0 & w0 & Hne0 & Hvw0) EY. destruct (C32_lexicographic_partial G H HG HH Hsz) as (h & inv & Eh & Rh & Hinv & Hinj & Vh & Ah).
  exists h, inv. pose proof (connected_rtc H Y HH EY) as Con.
  pose proof (wf_adj_vtx _ HH _ _ Hvw0) as Hv0. pose proof (wf_adj_vtx _ HH _ _ (wf_adj_sym _ HH _ _ Hvw0)) as Hw0.
  assert (∀ v, vtx H v → ∃ w, vtx H w ∧ adj H v w) as Hnb.
  { intros v Hv. assert (∃ t, vtx H t ∧ v ≠ t) as (t & Ht & Hne) by (destruct (decide (v = v0)) as [->|]; [by exists w0|by exists v0]).
    destruct (Con v t Hv Ht) as [|v w t Hvw _]; [done|]. exists w. split; [|done]. apply (wf_adj_sym _ HH) in Hvw. by eapply (wf_adj_vtx _ HH). }
  destruct (proj2 (Hinv u0 v0) (conj Hu0 Hv0)) as (x0 & Hx0).
  assert (∀ u v v' x y, rtc (adj H) v v' → inv !! x = Some (u, v) → inv !! y = Some (u, v') → rtc (adj (eg_graph h)) x y) as W2.
  { intros u v v' x y Hst. revert x. induction Hst as [v|v w v' Hvw _ IH]; intros x Hx Hy; [by rewrite (Hinj x y _ Hx Hy)|].
    destruct (proj2 (Hinv u w)) as (z & Hz).
    { split; [by apply (proj1 (Hinv u v)); eauto|]. by apply (wf_adj_vtx _ HH w v), (wf_adj_sym _ HH). }
    eapply rtc_l; [|by apply (IH z)]. apply (Ah x z). exists u, v, u, w. auto. }
  assert (∀ x, eg_contains h x = true ↔ is_Some (inv !! x)) as Vh'.
  { intros x. rewrite Vh. split; [intros (u & v & Hx & _); eauto|]. intros [[u v] Hx]. exists u, v. split; [done|]. right.
    destruct (proj1 (Hinv u v)) as [_ Hv]; [eauto|]. destruct (Hnb v Hv) as (w & _ & Hw). by exists w. }
  destruct (components_one (eg_graph h) x0 (C10_reachable_wf h Rh)) as (Z & EZ & HZ).
  - apply Vh'. eauto.
  - intros y Hy. apply Vh' in Hy as [[u v] Hy]. destruct (proj1 (Hinv u v)) as [Hu Hv]; [eauto|].
    destruct (Hnb v Hv) as (w & Hw & Hvw). destruct (proj2 (Hinv u0 w) (conj Hu0 Hw)) as (z & Hz).
    etrans; [apply (W2 u0 v0 w x0 z); [by apply Con|done|done]|]. apply rtc_once. apply (Ah z y). exists u0, w, u, v. split_and!; [done|done|]. left. by apply (wf_adj_sym _ HH).
  - exists Z. split_and!; [done|done|]. intros x. rewrite <- Vh'. apply HZ.
Qed.
End compose2.

(** ** Cases meeting the hypotheses: a triangle with a pendant edge, two separate edges, and a path *)
Local Existing Instance std_iter.
Definition C106_g : editgraph := ex_edit [(0, 1); (1, 2); (2, 0); (2, 3)]%N.
Definition C106_d : editgraph := ex_edit [(0, 1); (3, 4)]%N.
Definition C106_p : editgraph := ex_edit [(0, 1); (1, 2)]%N.
Lemma ex_C106_wf : graph_wf (eg_graph C106_g) ∧ graph_wf (eg_graph C106_d) ∧ graph_wf (eg_graph C106_p) ∧
  loopless (eg_graph C106_g) ∧ loopless (eg_graph C106_d) ∧ loopless (eg_graph C106_p).
Proof. split_and!; try apply ex_edit_spec; intros u Hu; apply ex_edit_spec in Hu; set_solver. Qed.
Definition C106_deg (G : graph) : option nat := match degeneracy G with Ok (_, up, _, _) => Some up | _ => None end.
Definition C106_bip (G : graph) : option bool := match is_bipartite G with Ok (Bipartition _ _) => Some true | Ok _ => Some false | _ => None end.
Definition C106_comps (G : graph) : option (list nat) := match components G with Ok cs => Some (size <$> cs) | _ => None end.
Example ex_C106 :
  C106_comps (eg_graph C106_d) = Some [2; 2] ∧ C106_comps (eg_graph C106_p) = Some [3] ∧
  match invert (eg_graph C106_d) with Ok h => C106_comps (eg_graph h) = Some [4] | _ => False end ∧
  match merge_graphs (eg_graph C106_g) (eg_graph C106_d) with
  | Ok h => C106_comps (eg_graph h) = Some [5] ∧ C106_deg (eg_graph h) = Some 2 | _ => False end ∧
  match intersect_graphs (eg_graph C106_g) (eg_graph C106_d) with
  | Ok h => C106_bip (eg_graph h) = Some true ∧ C106_deg (eg_graph h) = Some 1 ∧ C106_bip (eg_graph C106_g) = Some false | _ => False end ∧
  match lexicographic_product (eg_graph C106_d) (eg_graph C106_p) with
  | Ok (h, inv) => C106_bip (eg_graph h) = Some false ∧ C106_comps (eg_graph h) = Some [12] ∧ size inv = 12 | _ => False end ∧
  adjacent (eg_graph C106_p) 0 1 = true ∧ contains (eg_graph C106_d) 0 = true.
Proof. vm_compute. split_and!; reflexivity. Qed.

Print Assumptions C106_invert_connected.
Print Assumptions C106_merge_degeneracy.
Print Assumptions C106_merge_components.
Print Assumptions C106_merge_bipartite.
Print Assumptions C106_intersect.
Print Assumptions C106_intersect_degeneracy.
Print Assumptions C106_lexicographic_bipartite.
Print Assumptions C106_lexicographic_connected.
