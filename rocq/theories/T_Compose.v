(** Property theorem C93: what the algorithms return on combined graphs (disjoint union, cartesian
    product, subdivision, contraction), in terms of what they return on the parts. *)
From Verif Require Import Base Spec M_Graph M_Iterators M_EditGraph M_Algorithms M_Operations S_Graph
  P_EditGraph P_EditGraph2 P_Unions P_Degeneracy T_EditGraph T_Operations T_Algorithms T_Determin2 P_Iso P_Compose T_Generated P_Generators Examples.

(** If no subgraph has minimum degree above [k], every vertex set has a member with at most [k] neighbours in it. *)
Lemma sparse_vertex (G : graph) (k : nat) (U : gset N) : graph_wf G →
  (∀ H j, H ≠ ∅ → min_degree G H j → j ≤ k) → U ≠ ∅ → (∀ u, u ∈ U → vtx G u) →
  ∃ u, u ∈ U ∧ ∃ L, length L ≤ k ∧ ∀ w, w ∈ U → adj G u w → w ∈ L.
Proof.
  intros Hwf Hk HU HV. set (d := λ u, length (filter (λ w, w ∈ U) (nbrs G u))).
  destruct (decide (Forall (λ u, S k ≤ d u) (elements U))) as [Hall|Hex].
  - exfalso. assert (S k ≤ k) as Hbad; [|lia]. apply (Hk U); [done|]. intros u Hu. split; [by apply HV|].
    exists (filter (λ w, w ∈ U) (nbrs G u)). destruct (nbrs_spec G u Hwf (HV u Hu)) as (_ & Hnd & Hn & _). split_and!.
    + by apply NoDup_filter.
    + rewrite Forall_forall in Hall. apply Hall. by apply elem_of_elements.
    + intros w [Hw1 Hw2]%elem_of_list_filter. split; [done|by apply Hn].
  - apply not_Forall_Exists in Hex; [|apply _]. apply Exists_exists in Hex as (u & Hu%elem_of_elements & Hd).
    exists u. split; [done|]. exists (filter (λ w, w ∈ U) (nbrs G u)). fold (d u). split; [cbn in Hd; lia|].
    intros w Hw Huw. apply elem_of_list_filter. split; [done|]. by apply (nbrs_spec G u Hwf (HV u Hu)).
Qed.

Section compose.
Context {Hi : HashIter}.

(** ** C93: disjoint union *)
Theorem C93_disj_union_components (g : editgraph) (G : graph) : eg_reachable g → graph_wf G →
  (∀ v, contains G v = true → (v < 4294967296)%N) →
  (∀ u v, eg_contains g u = true → contains G v = true → (u + 1 + v < 4294967296)%N) →
  ∃ h cs1 cs2 cs off, eg_disj_union g G = Ok h ∧ components (eg_graph g) = Ok cs1 ∧ components G = Ok cs2 ∧
    components (eg_graph h) = Ok cs ∧ cs ≡ₚ cs1 ++ (set_map (λ v, (v + off)%N) <$> cs2).
Proof.
  intros Rg HG B1 B2. destruct (C13_disj_union g G Rg HG B1 B2) as (h & off & Eh & Rh & Hoff & Vh & Ah & _).
  pose proof (C10_reachable_wf g Rg) as Hg.
  destruct (C22_components (eg_graph g) Hg) as (cs1 & E1 & Hnd1 & Hne1 & Hdj1 & Hv1 & Hr1).
  destruct (C22_components G HG) as (cs2 & E2 & Hnd2 & Hne2 & Hdj2 & Hv2 & Hr2).
  assert (∀ X v, X ∈ cs1 → v ∈ X → eg_contains g v = true) as In1 by (intros X v HX Hv; apply (Hv1 v); eauto).
  assert (∀ X v, X ∈ cs2 → v ∈ X → contains G v = true) as In2 by (intros X v HX Hv; apply Hv2; eauto).
  (* an edge stays in its part *)
  assert (∀ u x, rtc (adj (eg_graph h)) u x → eg_contains g u = true → rtc (adj (eg_graph g)) u x) as Rt1.
  { intros u x Hux. induction Hux as [u|u w x Huw _ IH]; intros Hu; [done|]. apply (Ah u w) in Huw as [Huw|(a & b & Hab & -> & ->)].
    - eapply rtc_l; [exact Huw|]. apply IH. by apply (wf_adj_vtx _ Hg w u), (wf_adj_sym _ Hg).
    - assert (a + off < a + off)%N; [|lia]. apply (Hoff (a + off)%N a); [by apply (wf_adj_vtx _ HG a b)|done]. }
  assert (∀ u x, rtc (adj (eg_graph h)) (u + off)%N x → contains G u = true → ∃ v, x = (v + off)%N ∧ rtc (adj G) u v) as Rt2.
  { intros u x Hux. remember (u + off)%N as y eqn:Ey. revert u Ey. induction Hux as [y|y w x Huw _ IH]; intros u -> Hu; [by exists u|].
    apply (Ah (u + off)%N w) in Huw as [Huw|(a & b & Hab & Ea & ->)].
    - exfalso. assert (eg_contains g (u + off) = true) as Hc by (by apply (wf_adj_vtx _ Hg (u + off)%N w)).
      specialize (Hoff (u + off)%N u Hu Hc). lia.
    - assert (a = u) as -> by lia. destruct (IH b eq_refl) as (v & -> & Hv).
      + by apply (wf_adj_vtx _ HG b u), (wf_adj_sym _ HG).
      + exists v. split; [done|]. by eapply rtc_l. }
  assert (∀ u x, rtc (adj (eg_graph g)) u x → rtc (adj (eg_graph h)) u x) as Rt1'.
  { intros u x. apply rtc_subrel. intros a b Hab. apply (Ah a b). by left. }
  assert (∀ u x, rtc (adj G) u x → rtc (adj (eg_graph h)) (u + off)%N (x + off)%N) as Rt2'.
  { intros u x Hux. induction Hux as [|u w x Huw _ IH]; [done|]. eapply rtc_l; [|exact IH]. apply (Ah _ _). right. by exists u, w. }
  assert (∀ X : gset N, ∀ x, x ∈ (set_map (λ v, (v + off)%N) X : gset N) ↔ ∃ v, x = (v + off)%N ∧ v ∈ X) as Hmap by (intros X x; apply elem_of_map).
  destruct (components_value (eg_graph h) (cs1 ++ (set_map (λ v, (v + off)%N) <$> cs2)) (C10_reachable_wf h Rh)) as (cs & Ecs & Hp).
  - apply NoDup_app. split_and!; [done| |].
    + intros X HX (Y & -> & HY)%elem_of_list_fmap. destruct (set_choose_L Y (Hne2 Y HY)) as (v & Hv).
      assert (eg_contains g (v + off) = true) as Hc by (eapply In1; [exact HX|apply Hmap; eauto]).
      specialize (Hoff (v + off)%N v (In2 Y v HY Hv) Hc). lia.
    + apply NoDup_fmap_2_strong; [|done]. intros X Y HX HY E. apply set_eq. intros v.
      assert (∀ A B : gset N, (set_map (λ v, (v + off)%N) A : gset N) = set_map (λ v, (v + off)%N) B → v ∈ A → v ∈ B) as Hhalf.
      { intros A B EAB Hv. assert ((v + off)%N ∈ (set_map (λ v, (v + off)%N) B : gset N)) as (w & Hw & HwB)%Hmap; [rewrite <- EAB; apply Hmap; eauto|].
        assert (v = w) as -> by lia. done. }
      split; by apply Hhalf.
  - intros X [HX|(Y & -> & HY)%elem_of_list_fmap]%elem_of_app; [by apply Hne1|].
    destruct (set_choose_L Y (Hne2 Y HY)) as (v & Hv). intros E.
    assert ((v + off)%N ∈ (set_map (λ v, (v + off)%N) Y : gset N)) as Hin; [apply Hmap; eauto|]. rewrite E in Hin. by apply elem_of_empty in Hin.
  - intros X u v [HX|(Y & -> & HY)%elem_of_list_fmap]%elem_of_app Hu.
    + pose proof (In1 X u HX Hu) as Huv. split.
      * intros Hv. apply Rt1', (Hr1 u v Huv). eauto.
      * intros Hst%Rt1; [|done]. apply (Hr1 u v Huv) in Hst as (Z & HZ & HuZ & HvZ).
        destruct (decide (Z = X)) as [->|Hn]; [done|]. destruct (Hdj1 Z X HZ HX Hn u HuZ Hu).
    + apply Hmap in Hu as (a & -> & Ha). pose proof (In2 Y a HY Ha) as Hav. rewrite Hmap. split.
      * intros (b & -> & Hb). apply Rt2', (Hr2 a b Hav). eauto.
      * intros (b & -> & Hst)%Rt2; [|done]. exists b. split; [done|]. apply (Hr2 a b Hav) in Hst as (Z & HZ & HuZ & HvZ).
        destruct (decide (Z = Y)) as [->|Hn]; [done|]. destruct (Hdj2 Z Y HZ HY Hn a HuZ Ha).
  - intros v. unfold vtx. cbn. rewrite Vh. split.
    + intros [Hv|(w & Hw & ->)].
      * apply (Hv1 v) in Hv as (X & HX & HvX). exists X. split; [by apply elem_of_app; left|done].
      * apply Hv2 in Hw as (X & HX & HvX). exists (set_map (λ v, (v + off)%N) X). split; [apply elem_of_app; right; by apply elem_of_list_fmap_1|].
        apply Hmap. eauto.
    + intros (X & [HX|(Y & -> & HY)%elem_of_list_fmap]%elem_of_app & Hv); [left; by eapply In1|].
      apply Hmap in Hv as (w & -> & Hw). right. exists w. split; [by eapply In2|done].
  - by exists h, cs1, cs2, cs, off.
Qed.

Theorem C93_disj_union_bipartite (g : editgraph) (G : graph) : eg_reachable g → graph_wf G →
  (∀ v, contains G v = true → (v < 4294967296)%N) →
  (∀ u v, eg_contains g u = true → contains G v = true → (u + 1 + v < 4294967296)%N) →
  ∃ h, eg_disj_union g G = Ok h ∧
    ((∃ L R, is_bipartite (eg_graph h) = Ok (Bipartition L R)) ↔
     (∃ L R, is_bipartite (eg_graph g) = Ok (Bipartition L R)) ∧ (∃ L R, is_bipartite G = Ok (Bipartition L R))).
Proof.
  intros Rg HG B1 B2. destruct (C13_disj_union g G Rg HG B1 B2) as (h & off & Eh & Rh & Hoff & Vh & Ah & _).
  exists h. split; [done|]. pose proof (C10_reachable_wf g Rg) as Hg.
  rewrite (C25_iff_two_colourable (eg_graph h) (C10_reachable_wf h Rh)), (C25_iff_two_colourable (eg_graph g) Hg), (C25_iff_two_colourable G HG). split.
  - intros (f & Hf). split.
    + exists f. intros u v Huv. apply Hf, (Ah u v). by left.
    + exists (λ v, f (v + off)%N). intros u v Huv. apply Hf, (Ah _ _). right. by exists u, v.
  - intros [(f1 & H1) (f2 & H2)]. exists (λ x, if eg_contains g x then f1 x else f2 (x - off)%N). intros x y [Hxy|(u & v & Huv & -> & ->)]%Ah.
    + rewrite (wf_adj_vtx _ Hg x y Hxy : eg_contains g x = true), (wf_adj_vtx _ Hg y x (wf_adj_sym _ Hg _ _ Hxy) : eg_contains g y = true). by apply H1.
    + assert (∀ w, contains G w = true → eg_contains g (w + off) = false) as Hno.
      { intros w Hw. apply not_true_iff_false. intros Hc. specialize (Hoff (w + off)%N w Hw Hc). lia. }
      rewrite !Hno; [|by eapply (wf_adj_vtx _ HG), (wf_adj_sym _ HG)|by eapply (wf_adj_vtx _ HG)].
      rewrite !N.add_sub. by apply H2.
Qed.

Theorem C93_disj_union_degeneracy (g : editgraph) (G : graph) lo1 up1 o1 c1 lo2 up2 o2 c2 : eg_reachable g → graph_wf G →
  loopless (eg_graph g) → loopless G → (∃ u, eg_contains g u = true) → (∃ u, contains G u = true) →
  (∀ v, contains G v = true → (v < 4294967296)%N) →
  (∀ u v, eg_contains g u = true → contains G v = true → (u + 1 + v < 4294967296)%N) →
  degeneracy (eg_graph g) = Ok (lo1, up1, o1, c1) → degeneracy G = Ok (lo2, up2, o2, c2) → up1 ≤ 129 → up2 ≤ 129 →
  ∃ h o c, eg_disj_union g G = Ok h ∧ degeneracy (eg_graph h) = Ok (max up1 up2, max up1 up2, o, c).
Proof.
  intros Rg HG Hl1 Hl2 N1 N2 B1 B2 D1 D2 K1 K2.
  destruct (C13_disj_union g G Rg HG B1 B2) as (h & off & Eh & Rh & Hoff & Vh & Ah & _).
  exists h. pose proof (C10_reachable_wf g Rg) as Hg.
  destruct (C24_exact_small _ _ _ _ _ Hg Hl1 D1 N1 K1) as (_ & (H1 & HH1 & M1) & X1 & _).
  destruct (C24_exact_small _ _ _ _ _ HG Hl2 D2 N2 K2) as (_ & (H2 & HH2 & M2) & X2 & _).
  assert (∀ H k, min_degree (eg_graph g) H k → min_degree (eg_graph h) H k) as L1.
  { intros H k Hm v Hv. destruct (Hm v Hv) as (Hvv & l & ? & ? & Hl). split; [apply (Vh v); by left|].
    exists l. split_and!; [done|done|]. intros u Hu. destruct (Hl u Hu). split; [done|]. apply (Ah v u). by left. }
  assert (∀ H k, min_degree G H k → min_degree (eg_graph h) (set_map (λ v, (v + off)%N) H) k) as L2.
  { intros H k Hm v Hv. apply elem_of_map in Hv as (w & -> & Hw). destruct (Hm w Hw) as (Hwv & l & Hnd & Hk & Hl).
    split; [apply (Vh _); right; eauto|]. exists ((λ v, (v + off)%N) <$> l). split_and!.
    - apply NoDup_fmap_2; [intros a b; lia|done].
    - by rewrite fmap_length.
    - intros u (x & -> & Hx)%elem_of_list_fmap. destruct (Hl x Hx) as [Hx1 Hx2].
      split; [apply elem_of_map; eauto|]. apply (Ah _ _). right. by exists w, x. }
  assert (∃ H, H ≠ ∅ ∧ min_degree (eg_graph h) H (max up1 up2)) as (HH & HHn & HHm).
  { destruct (Nat.max_spec up1 up2) as [[_ ->]|[_ ->]]; [|by exists H1; split; [|apply L1]].
    exists (set_map (λ v, (v + off)%N) H2). split; [|by apply L2].
    apply set_choose_L in HH2 as (v & Hv). intros E. assert ((v + off)%N ∈ (set_map (λ v, (v + off)%N) H2 : gset N)) as Hin; [apply elem_of_map; eauto|].
    rewrite E in Hin. by apply elem_of_empty in Hin. }
  destruct (degeneracy_value (eg_graph h) HH (max up1 up2) (C10_reachable_wf h Rh)) as (o & c & Ed); [|done|done|lia| |by exists o, c].
  - intros u [Hu|(a & b & Hab & -> & E)]%Ah; [by apply (Hl1 u)|]. assert (a = b) as -> by lia. by apply (Hl2 b).
  - (* a dense set meets one of the parts, and is as dense there *)
    intros H' j HH' Hm'. apply set_choose_L in HH' as (x & Hx). destruct (Hm' x Hx) as (Hxv & _).
    apply (Vh x) in Hxv as [Hxv|(w & Hw & ->)].
    + etransitivity; [|apply Nat.le_max_l]. apply (X1 (filter (λ v, eg_contains g v = true) H')).
      { intros E. assert (x ∈ filter (λ v, eg_contains g v = true) H') as Hin by (by apply elem_of_filter). rewrite E in Hin. by apply elem_of_empty in Hin. }
      intros v [Hv1 Hv2]%elem_of_filter. split; [done|]. destruct (Hm' v Hv2) as (_ & l & Hnd & Hj & Hl). exists l. split_and!; [done|done|].
      intros u Hu. destruct (Hl u Hu) as [Hu1 Hu2]. apply (Ah v u) in Hu2 as [Hu2|(a & b & Hab & -> & ->)].
      * split; [|done]. apply elem_of_filter. split; [|done]. by apply (wf_adj_vtx _ Hg u v), (wf_adj_sym _ Hg).
      * exfalso. specialize (Hoff (a + off)%N a (wf_adj_vtx _ HG a b Hab) Hv1). lia.
    + etransitivity; [|apply Nat.le_max_r]. apply (X2 (filter (λ v, (v + off)%N ∈ H') (list_to_set (vertices G)))).
      { intros E. assert (w ∈ filter (λ v, (v + off)%N ∈ H') (list_to_set (vertices G) : gset N)) as Hin.
        - apply elem_of_filter. split; [done|]. by apply elem_of_list_to_set, (wf_vertices _ HG).
        - rewrite E in Hin. by apply elem_of_empty in Hin. }
      intros v [Hv1 Hv2%elem_of_list_to_set%(wf_vertices _ HG)]%elem_of_filter. split; [done|].
      destruct (Hm' _ Hv1) as (_ & l & Hnd & Hj & Hl).
      assert (∀ u, u ∈ l → ∃ a, u = (a + off)%N ∧ u ∈ H' ∧ adj G v a) as Hl'.
      { intros u Hu. destruct (Hl u Hu) as [Hu1 Hu2]. apply (Ah _ u) in Hu2 as [Hu2|(a & b & Hab & Ea & ->)].
        - exfalso. pose proof (wf_adj_vtx _ Hg _ _ Hu2) as Hc. specialize (Hoff (v + off)%N v Hv2 Hc). lia.
        - assert (a = v) as -> by lia. eauto. }
      exists ((λ x, (x - off)%N) <$> l). split_and!.
      * apply NoDup_fmap_2_strong; [|done]. intros a b (a' & -> & _)%Hl' (b' & -> & _)%Hl' E. lia.
      * by rewrite fmap_length.
      * intros u (y & -> & (a & -> & Ha1 & Ha2)%Hl')%elem_of_list_fmap. rewrite N.add_sub. split; [|done].
        apply elem_of_filter. split; [done|]. apply elem_of_list_to_set, (wf_vertices _ HG). by apply (wf_adj_vtx _ HG a v), (wf_adj_sym _ HG).
Qed.

(** ** C93: cartesian product *)
Theorem C93_cartesian_bipartite (G H : graph) : graph_wf G → graph_wf H →
  (N.of_nat (num_vertices G * num_vertices H) <= 2 ^ 32)%N → (∃ u, contains G u = true) → (∃ v, contains H v = true) →
  ∃ h inv, cartesian_product G H = Ok (h, inv) ∧
    ((∃ L R, is_bipartite (eg_graph h) = Ok (Bipartition L R)) ↔
     (∃ L R, is_bipartite G = Ok (Bipartition L R)) ∧ (∃ L R, is_bipartite H = Ok (Bipartition L R))).
Proof.
  intros HG HH Hsz [u0 Hu0] [v0 Hv0]. destruct (C31_cartesian_partial G H HG HH Hsz) as (h & inv & Eh & Rh & Hinv & Hinj & Vh & Ah).
  exists h, inv. split; [done|].
  rewrite (C25_iff_two_colourable (eg_graph h) (C10_reachable_wf h Rh)), (C25_iff_two_colourable G HG), (C25_iff_two_colourable H HH). split.
  - intros (f & Hf).
    set (id := λ p, match list_find (λ q : N * (N * N), q.2 = p) (map_to_list inv) with Some (_, q) => q.1 | None => 0%N end).
    assert (∀ u v, contains G u = true → contains H v = true → inv !! id (u, v) = Some (u, v)) as Hid.
    { intros u v Hu Hv. destruct (proj2 (Hinv u v) (conj Hu Hv)) as (x & Hx). unfold id.
      destruct (list_find _ (map_to_list inv)) as [[i [y p]]|] eqn:E.
      - apply list_find_Some in E as (E & Hp & _). cbn in Hp |- *. subst p. apply elem_of_list_lookup_2, elem_of_map_to_list in E. done.
      - exfalso. apply list_find_None in E. rewrite Forall_forall in E. apply (E (x, (u, v))); [|done]. by apply elem_of_map_to_list. }
    split.
    + exists (λ u, f (id (u, v0))). intros a b Hab. apply Hf. apply (Ah _ _). exists a, v0, b, v0. split_and!; [apply Hid|apply Hid|by right]; try done.
      * by apply (wf_adj_vtx _ HG a b).
      * by apply (wf_adj_vtx _ HG b a), (wf_adj_sym _ HG).
    + exists (λ v, f (id (u0, v))). intros a b Hab. apply Hf. apply (Ah _ _). exists u0, a, u0, b. split_and!; [apply Hid|apply Hid|by left]; try done.
      * by apply (wf_adj_vtx _ HH a b).
      * by apply (wf_adj_vtx _ HH b a), (wf_adj_sym _ HH).
  - intros [(f1 & H1) (f2 & H2)]. exists (λ x, match inv !! x with Some (u, v) => xorb (f1 u) (f2 v) | None => false end).
    intros x y (u & v & u' & v' & -> & -> & [[-> Hvv]|[-> Huu]])%Ah.
    + specialize (H2 v v' Hvv). destruct (f1 u'), (f2 v), (f2 v'); done.
    + specialize (H1 u u' Huu). destruct (f2 v'), (f1 u), (f1 u'); done.
Qed.

Theorem C93_cartesian_connected (G H : graph) X Y : graph_wf G → graph_wf H →
  (N.of_nat (num_vertices G * num_vertices H) <= 2 ^ 32)%N → (∃ u v, adjacent G u v = true) →
  components G = Ok [X] → components H = Ok [Y] →
  ∃ h inv Z, cartesian_product G H = Ok (h, inv) ∧ components (eg_graph h) = Ok [Z].
Proof.
  intros HG HH Hsz (u0 & w0 & Huw0) EX EY. destruct (C31_cartesian_partial G H HG HH Hsz) as (h & inv & Eh & Rh & Hinv & Hinj & Vh & Ah).
  exists h, inv.
  destruct (C22_components G HG) as (cs & E & _ & _ & _ & Hv & Hr). rewrite EX in E. injection E as <-.
  destruct (C22_components H HH) as (cs & E & _ & Hne2 & _ & Hv2 & Hr2). rewrite EY in E. injection E as <-.
  assert (∀ u v, contains G u = true → contains G v = true → rtc (adj G) u v) as Con1.
  { intros u v Hu Hw. apply Hr; [done|]. apply Hv in Hu as (? & ->%elem_of_list_singleton & ?), Hw as (? & ->%elem_of_list_singleton & ?).
    exists X. split; [by apply elem_of_list_singleton|done]. }
  assert (∀ u v, contains H u = true → contains H v = true → rtc (adj H) u v) as Con2.
  { intros u v Hu Hw. apply Hr2; [done|]. apply Hv2 in Hu as (? & ->%elem_of_list_singleton & ?), Hw as (? & ->%elem_of_list_singleton & ?).
    exists Y. split; [by apply elem_of_list_singleton|done]. }
  assert (∃ v0, contains H v0 = true) as (v0 & Hv0).
  { destruct (set_choose_L Y) as (v & Hvy); [apply Hne2; by apply elem_of_list_singleton|]. exists v. apply Hv2. exists Y. split; [by apply elem_of_list_singleton|done]. }
  pose proof (wf_adj_vtx _ HG _ _ Huw0 : contains G u0 = true) as Hu0.
  destruct (proj2 (Hinv u0 v0) (conj Hu0 Hv0)) as (x0 & Hx0).
  (* walk in the first coordinate, then in the second *)
  assert (∀ u u' v x y, rtc (adj G) u u' → inv !! x = Some (u, v) → inv !! y = Some (u', v) → rtc (adj (eg_graph h)) x y) as W1.
  { intros u u' v x y Hst. revert x. induction Hst as [u|u w u' Huw _ IH]; intros x Hx Hy; [by rewrite (Hinj x y _ Hx Hy)|].
    destruct (proj2 (Hinv w v)) as (z & Hz).
    { split; [by apply (wf_adj_vtx _ HG w u), (wf_adj_sym _ HG)|]. by apply (proj1 (Hinv u v)); eauto. }
    eapply rtc_l; [|by apply (IH z)]. apply (Ah x z). exists u, v, w, v. auto. }
  assert (∀ u v v' x y, rtc (adj H) v v' → inv !! x = Some (u, v) → inv !! y = Some (u, v') → rtc (adj (eg_graph h)) x y) as W2.
  { intros u v v' x y Hst. revert x. induction Hst as [v|v w v' Hvw _ IH]; intros x Hx Hy; [by rewrite (Hinj x y _ Hx Hy)|].
    destruct (proj2 (Hinv u w)) as (z & Hz).
    { split; [by apply (proj1 (Hinv u v)); eauto|]. by apply (wf_adj_vtx _ HH w v), (wf_adj_sym _ HH). }
    eapply rtc_l; [|by apply (IH z)]. apply (Ah x z). exists u, v, u, w. auto. }
  destruct (components_one (eg_graph h) x0 (C10_reachable_wf h Rh)) as (Z & EZ & _).
  - apply (Vh x0). exists u0, v0. split; [done|]. left. by exists w0.
  - intros y (u & v & Hy & _)%Vh. destruct (proj1 (Hinv u v)) as [Hu Hv']; [eauto|].
    destruct (proj2 (Hinv u v0) (conj Hu Hv0)) as (z & Hz). etransitivity.
    + apply (W1 u0 u v0 x0 z); [by apply Con1|done|done].
    + apply (W2 u v0 v z y); [by apply Con2|done|done].
  - by exists Z.
Qed.

Lemma lift_list (inv : gmap N (N * N)) (f : N → N * N) (l : list N) : (∀ a b, f a = f b → a = b) → NoDup l →
  (∀ a, a ∈ l → ∃ x, inv !! x = Some (f a)) →
  ∃ l', NoDup l' ∧ length l' = length l ∧ ∀ x, x ∈ l' → ∃ a, a ∈ l ∧ inv !! x = Some (f a).
Proof using Type.
  intros Hf. induction l as [|a l IH]; intros Hnd Hex.
  - exists []. split_and!; [constructor|done|set_solver].
  - apply NoDup_cons in Hnd as [Ha Hnd]. destruct IH as (l' & Hnd' & Hlen & Hl'); [done|intros b Hb; apply Hex; by right|].
    destruct (Hex a) as (x & Hx); [by left|]. exists (x :: l'). split_and!.
    + apply NoDup_cons. split; [|done]. intros (b & Hb & Eb)%Hl'. rewrite Hx in Eb. injection Eb as Eb. apply Hf in Eb as <-. done.
    + cbn. by rewrite Hlen.
    + intros y [->|Hy]%elem_of_cons; [exists a; split; [by left|done]|]. destruct (Hl' y Hy) as (b & Hb & Eb). exists b. split; [by right|done].
Qed.
Lemma proj_list (inv : gmap N (N * N)) (p : N * N → N) (l L : list N) : NoDup l →
  (∀ x y a b, x ∈ l → y ∈ l → inv !! x = Some a → inv !! y = Some b → p a = p b → x = y) →
  (∀ x, x ∈ l → ∃ a, inv !! x = Some a ∧ p a ∈ L) → length l ≤ length L.
Proof using Type.
  revert L. induction l as [|x l IH]; intros L Hnd Hinj Hin; [cbn; lia|]. apply NoDup_cons in Hnd as [Hx Hnd].
  destruct (Hin x) as (a & Ha & HaL); [by left|]. apply elem_of_Permutation in HaL as (L' & HL').
  rewrite (Permutation_length HL'). cbn. apply le_n_S. apply IH; [done| |].
  - intros y z b c Hy Hz. apply Hinj; by right.
  - intros y Hy. destruct (Hin y) as (b & Hb & HbL); [by right|]. exists b. split; [done|].
    rewrite HL' in HbL. apply elem_of_cons in HbL as [E|]; [|done].
    destruct Hx. by rewrite <- (Hinj y x b a (elem_of_list_further _ _ _ Hy) (elem_of_list_here _ _) Hb Ha E).
Qed.

Theorem C93_cartesian_degeneracy (G H : graph) lo1 up1 o1 c1 lo2 up2 o2 c2 : graph_wf G → graph_wf H → loopless G → loopless H →
  (N.of_nat (num_vertices G * num_vertices H) <= 2 ^ 32)%N → (∃ u, contains G u = true) → (∃ v, contains H v = true) →
  (∃ u v, adjacent G u v = true) ∨ (∃ u v, adjacent H u v = true) →
  degeneracy G = Ok (lo1, up1, o1, c1) → degeneracy H = Ok (lo2, up2, o2, c2) → up1 + up2 ≤ 129 →
  ∃ h inv o c, cartesian_product G H = Ok (h, inv) ∧ degeneracy (eg_graph h) = Ok (up1 + up2, up1 + up2, o, c).
Proof.
  intros HG HH Hl1 Hl2 Hsz N1 N2 Hedge D1 D2 K.
  destruct (C31_cartesian_partial G H HG HH Hsz) as (h & inv & Eh & Rh & Hinv & Hinj & Vh & Ah).
  destruct (C24_exact_small _ _ _ _ _ HG Hl1 D1 N1 ltac:(lia)) as (_ & (H1 & HH1 & M1) & X1 & _).
  destruct (C24_exact_small _ _ _ _ _ HH Hl2 D2 N2 ltac:(lia)) as (_ & (H2 & HH2 & M2) & X2 & _).
  exists h, inv. pose proof (C10_reachable_wf h Rh) as Hh.
  assert (1 ≤ up1 + up2) as Hpos.
  { assert (∀ (K : graph) u v, graph_wf K → adjacent K u v = true → min_degree K {[u; v]} 1) as Hone.
    { intros K' u v HK Huv w Hw. assert (∃ x, (x = u ∨ x = v) ∧ adjacent K' w x = true) as (x & Hx & Hwx).
      { rewrite elem_of_union, !elem_of_singleton in Hw. destruct Hw as [->| ->]; [by exists v; auto|].
        exists u. split; [auto|]. by apply (wf_adj_sym _ HK). }
      split; [by apply (wf_adj_vtx _ HK w x)|]. exists [x]. split_and!; [apply NoDup_singleton|done|].
      intros y ->%elem_of_list_singleton. rewrite elem_of_union, !elem_of_singleton. done. }
    destruct Hedge as [(u & v & Huv)|(u & v & Huv)].
    - pose proof (X1 {[u; v]} 1 ltac:(set_solver) (Hone G u v HG Huv)). lia.
    - pose proof (X2 {[u; v]} 1 ltac:(set_solver) (Hone H u v HH Huv)). lia. }
  set (Q := λ x, match inv !! x with Some (u, v) => u ∈ H1 ∧ v ∈ H2 | None => False end).
  assert (∀ x, Decision (Q x)) as HQ by (intros x; unfold Q; destruct (inv !! x) as [[a b]|]; apply _).
  destruct (degeneracy_value (eg_graph h) (filter Q (dom inv)) (up1 + up2) Hh) as (o & c & Ed); [| | |lia| |by exists o, c].
  - intros x (u & v & u' & v' & Hx & Hx' & Hc)%Ah. rewrite Hx in Hx'. injection Hx' as <- <-.
    destruct Hc as [[_ Hc]|[_ Hc]]; [by apply (Hl2 v)|by apply (Hl1 u)].
  - apply set_choose_L in HH1 as (u & Hu), HH2 as (v & Hv). destruct (proj2 (Hinv u v)) as (x & Hx); [split; [by apply M1|by apply M2]|].
    intros E. assert (x ∈ filter Q (dom inv)) as Hin; [|rewrite E in Hin; by apply elem_of_empty in Hin].
    apply elem_of_filter. split; [unfold Q; by rewrite Hx|by apply elem_of_dom_2 in Hx].
  - intros x [Hx1 Hx2]%elem_of_filter. unfold Q in Hx1. destruct (inv !! x) as [[u v]|] eqn:Ex; [|done]. destruct Hx1 as [Hu Hv].
    destruct (M1 u Hu) as (Hu' & l1 & Hnd1 & Hk1 & Hl1'), (M2 v Hv) as (Hv' & l2 & Hnd2 & Hk2 & Hl2').
    destruct (lift_list inv (λ a, (a, v)) l1) as (m1 & Hm1 & Hlen1 & Hin1); [by intros a b [= ->]|done| |].
    { intros a Ha. apply Hinv. split; [by apply M1, Hl1'|done]. }
    destruct (lift_list inv (λ a, (u, a)) l2) as (m2 & Hm2 & Hlen2 & Hin2); [by intros a b [= ->]|done| |].
    { intros a Ha. apply Hinv. split; [done|by apply M2, Hl2']. }
    assert (∀ y, y ∈ m1 ++ m2 → y ∈ filter Q (dom inv) ∧ adj (eg_graph h) x y) as Hall.
    { intros y [(a & Ha & Ea)%Hin1|(a & Ha & Ea)%Hin2]%elem_of_app.
      - destruct (Hl1' a Ha) as [Ha1 Ha2]. split.
        + apply elem_of_filter. split; [unfold Q; by rewrite Ea|by apply elem_of_dom_2 in Ea].
        + apply (Ah x y). exists u, v, a, v. auto.
      - destruct (Hl2' a Ha) as [Ha1 Ha2]. split.
        + apply elem_of_filter. split; [unfold Q; by rewrite Ea|by apply elem_of_dom_2 in Ea].
        + apply (Ah x y). exists u, v, u, a. auto. }
    assert (up1 + up2 ≤ length (m1 ++ m2)) as Hlen by (rewrite app_length; lia). split.
    + destruct (m1 ++ m2) as [|y m] eqn:Em; [cbn in Hlen; lia|]. apply (wf_adj_vtx _ Hh x y). apply Hall. by left.
    + exists (m1 ++ m2). split_and!; [|done|done]. apply NoDup_app. split_and!; [done| |done].
      intros y (a & Ha & Ea)%Hin1 (b & Hb & Eb)%Hin2. rewrite Ea in Eb. injection Eb as -> ->.
      destruct (Hl1' u Ha) as [_ Hc]. by apply (Hl1 u).
  - intros H' j HH' Hm'.
    set (U := list_to_set (omap (λ x, fst <$> inv !! x) (elements H')) : gset N).
    assert (∀ u, u ∈ U ↔ ∃ x v, x ∈ H' ∧ inv !! x = Some (u, v)) as HU.
    { intros u. unfold U. rewrite elem_of_list_to_set, elem_of_list_omap. split.
      - intros (x & Hx%elem_of_elements & Ex). destruct (inv !! x) as [[a b]|] eqn:E; [|done]. injection Ex as ->. eauto.
      - intros (x & v & Hx & Ex). exists x. rewrite elem_of_elements, Ex. done. }
    assert (∀ x, x ∈ H' → ∃ u v, inv !! x = Some (u, v)) as Hsome.
    { intros x Hx. destruct (Hm' x Hx) as [Hxv _]. apply (Vh x) in Hxv as (u & v & -> & _). eauto. }
    apply set_choose_L in HH' as (x0 & Hx0).
    destruct (sparse_vertex G up1 U HG X1) as (u & Hu & L1 & HL1 & Hnb1).
    { intros E. destruct (Hsome x0 Hx0) as (u & v & Ex). assert (u ∈ U) as Hu by (apply HU; eauto). rewrite E in Hu. by apply elem_of_empty in Hu. }
    { intros u (x & v & _ & Ex)%HU. apply (Hinv u v). eauto. }
    set (V := list_to_set (omap (λ x, '(a, b) ← inv !! x; if decide (a = u) then Some b else None) (elements H')) : gset N).
    assert (∀ v, v ∈ V ↔ ∃ x, x ∈ H' ∧ inv !! x = Some (u, v)) as HV.
    { intros v. unfold V. rewrite elem_of_list_to_set, elem_of_list_omap. split.
      - intros (x & Hx%elem_of_elements & Ex). destruct (inv !! x) as [[a b]|] eqn:E; [|done]. cbn in Ex. case_decide; [|done].
        injection Ex as ->. subst. eauto.
      - intros (x & Hx & Ex). exists x. rewrite elem_of_elements, Ex. cbn. by rewrite decide_True. }
    destruct (sparse_vertex H up2 V HH X2) as (v & Hv & L2 & HL2 & Hnb2).
    { intros E. apply HU in Hu as (x & v & Hx & Ex). assert (v ∈ V) as Hv by (apply HV; eauto). rewrite E in Hv. by apply elem_of_empty in Hv. }
    { intros v (x & _ & Ex)%HV. apply (Hinv u v). eauto. }
    apply HV in Hv as (x & Hx & Ex). destruct (Hm' x Hx) as (_ & l & Hnd & Hj & Hl). etransitivity; [exact Hj|].
    (* neighbours of [(u, v)] differ in exactly one coordinate *)
    set (P := λ y, match inv !! y with Some (a, b) => b = v | None => False end).
    assert (∀ y, Decision (P y)) as HP by (intros y; unfold P; destruct (inv !! y) as [[a b]|]; apply _).
    assert (∀ y, y ∈ l → y ∈ H' ∧ ((∃ a, inv !! y = Some (a, v) ∧ adj G u a) ∨ (∃ b, inv !! y = Some (u, b) ∧ adj H v b))) as Hshape.
    { intros y Hy. destruct (Hl y Hy) as [Hy1 Hy2]. split; [done|]. apply (Ah x y) in Hy2 as (a & b & a' & b' & Ea & Eb & Hc).
      rewrite Ex in Ea. injection Ea as <- <-. destruct Hc as [[<- Hc]|[<- Hc]]; [right|left]; eauto. }
    assert (length l = length (filter P l) + length (filter (λ y, ¬ P y) l)) as ->.
    { clear -HP. induction l as [|y l IH]; [done|]. rewrite !filter_cons. destruct (decide (P y)), (decide (¬ P y)); cbn; tauto || lia. }
    apply Nat.add_le_mono.
    + etransitivity; [|exact HL1]. apply (proj_list inv fst); [by apply NoDup_filter| |].
      * intros y z [a b] [a' b'] [Py Hy]%elem_of_list_filter [Pz Hz]%elem_of_list_filter Ey Ez E. unfold P in Py, Pz. rewrite Ey in Py. rewrite Ez in Pz.
        cbn in E. subst. by apply (Hinj y z _ Ey Ez).
      * intros y [Py Hy]%elem_of_list_filter. destruct (Hshape y Hy) as [Hy' [(a & Ea & Hua)|(b & Eb & Hvb)]].
        -- exists (a, v). split; [done|]. apply Hnb1; [apply HU; eauto|done].
        -- exfalso. unfold P in Py. rewrite Eb in Py. subst b. by apply (Hl2 v).
    + etransitivity; [|exact HL2]. apply (proj_list inv snd); [by apply NoDup_filter| |].
      * intros y z [a b] [a' b'] [Py Hy]%elem_of_list_filter [Pz Hz]%elem_of_list_filter Ey Ez E. cbn in E. subst b'.
        assert (∀ w c d, w ∈ l → ¬ P w → inv !! w = Some (c, d) → c = u) as Hfst.
        { intros w c d Hw Pw Ew. destruct (Hshape w Hw) as [_ [(a1 & Ea & _)|(b1 & Eb & _)]].
          - destruct Pw. unfold P. by rewrite Ea.
          - rewrite Ew in Eb. by injection Eb as -> _. }
        assert (a = u) as -> by (by apply (Hfst y a b)). assert (a' = u) as -> by (by apply (Hfst z a' b)). by apply (Hinj y z _ Ey Ez).
      * intros y [Py Hy]%elem_of_list_filter. destruct (Hshape y Hy) as [Hy' [(a & Ea & Hua)|(b & Eb & Hvb)]].
        -- destruct Py. unfold P. by rewrite Ea.
        -- exists (u, b). split; [done|]. apply Hnb2; [apply HV; eauto|done].
Qed.

(** ** C93: contraction and subdivision keep the number of components *)
Lemma components_retract (G K : graph) (π : N → N) : graph_wf G → graph_wf K →
  (∀ x, vtx K x → vtx G (π x)) → (∀ x y, vtx K x → vtx K y → rtc (adj K) x y ↔ rtc (adj G) (π x) (π y)) →
  (∀ u, vtx G u → ∃ x, vtx K x ∧ rtc (adj G) u (π x)) →
  ∃ cs1 cs2, components G = Ok cs1 ∧ components K = Ok cs2 ∧
    cs2 ≡ₚ (λ X : gset N, filter (λ x, π x ∈ X) (list_to_set (vertices K))) <$> cs1.
Proof using Hi.
  intros HG HK Hπ Hrt Hcov. destruct (C22_components G HG) as (cs1 & E1 & Hnd & Hne & Hdj & Hv & Hr).
  set (F := λ X : gset N, filter (λ x, π x ∈ X) (list_to_set (vertices K)) : gset N).
  assert (∀ X x, x ∈ F X ↔ vtx K x ∧ π x ∈ X) as HF.
  { intros X x. unfold F. rewrite elem_of_filter, elem_of_list_to_set, (wf_vertices _ HK). tauto. }
  assert (∀ X u v, X ∈ cs1 → u ∈ X → v ∈ X ↔ rtc (adj G) u v) as Hcl.
  { intros X u v HX Hu. assert (vtx G u) as Huv by (apply Hv; eauto). rewrite <- (Hr u v Huv). split; [by eauto|].
    intros (Z & HZ & HuZ & HvZ). destruct (decide (Z = X)) as [->|Hn]; [done|]. destruct (Hdj Z X HZ HX Hn u HuZ Hu). }
  assert (∀ X, X ∈ cs1 → ∃ x, x ∈ F X) as HFne.
  { intros X HX. destruct (set_choose_L X (Hne X HX)) as (u & Hu). destruct (Hcov u) as (x & Hx & Hst); [apply Hv; eauto|].
    exists x. apply HF. split; [done|]. by apply (Hcl X u _ HX Hu). }
  destruct (components_value K (F <$> cs1) HK) as (cs2 & E2 & Hp); [| | | |by exists cs1, cs2].
  - apply NoDup_fmap_2_strong; [|done]. intros X Y HX HY E. destruct (HFne X HX) as (x & Hx). pose proof Hx as Hx'. rewrite E in Hx'.
    apply HF in Hx as [_ Hx], Hx' as [_ Hx']. destruct (decide (X = Y)) as [|Hn]; [done|]. destruct (Hdj X Y HX HY Hn _ Hx Hx').
  - intros Y (X & -> & HX)%elem_of_list_fmap E. destruct (HFne X HX) as (x & Hx). rewrite E in Hx. by apply elem_of_empty in Hx.
  - intros Y x y (X & -> & HX)%elem_of_list_fmap [Hx Hπx]%HF. rewrite HF. split.
    + intros [Hy Hπy]. apply Hrt; [done..|]. by apply (Hcl X).
    + intros Hst. assert (vtx K y) as Hy.
      { clear -Hst Hx HK. induction Hst as [|x w y Hxw _ IH]; [done|]. apply IH. by apply (wf_adj_vtx _ HK w x), (wf_adj_sym _ HK). }
      split; [done|]. apply (Hcl X _ _ HX Hπx). by apply Hrt.
  - intros x. split.
    + intros Hx. destruct (proj1 (Hv (π x)) (Hπ x Hx)) as (X & HX & Hx'). exists (F X). split; [by apply elem_of_list_fmap_1|by apply HF].
    + intros (Y & (X & -> & HX)%elem_of_list_fmap & [Hx _]%HF). done.
Qed.

(** Contracting vertices of one component: every component loses exactly the contracted vertices. *)
Theorem C93_contract_components (g : editgraph) (c : N) (X : list N) :
  eg_reachable g → eg_contains g c = true → (∀ v, v ∈ X → eg_contains g v = true) →
  (∀ v, v ∈ X → ∃ cs Y, components (eg_graph g) = Ok cs ∧ Y ∈ cs ∧ c ∈ Y ∧ v ∈ Y) →
  ∃ h cs1 cs2, eg_contract_into g c X = Ok h ∧ components (eg_graph g) = Ok cs1 ∧ components (eg_graph h) = Ok cs2 ∧
    cs2 ≡ₚ (λ Y, Y ∖ (list_to_set X ∖ {[c]})) <$> cs1.
Proof.
  intros Rg Hc HX Hone. destruct (C09_contract_into g c X Rg Hc HX) as (h & Eh & Rh & Vh & A1 & A2 & A3).
  pose proof (C10_reachable_wf g Rg) as Hg. pose proof (C10_reachable_wf h Rh) as Hh.
  assert (∀ u v, rtc (adj (eg_graph g)) u v → rtc (adj (eg_graph g)) v u) as Hsym.
  { intros u v Huv. induction Huv as [|u w v Huw _ IH]; [done|]. eapply rtc_r; [exact IH|]. by apply (wf_adj_sym _ Hg). }
  assert (∀ v, v ∈ X → rtc (adj (eg_graph g)) c v) as Hcv.
  { intros v Hv. destruct (Hone v Hv) as (cs & Y & Ecs & HY & HcY & HvY). destruct (C22_components (eg_graph g) Hg) as (cs' & Ecs' & _ & _ & _ & _ & Hr).
    rewrite Ecs in Ecs'. injection Ecs' as <-. apply (Hr c v Hc). eauto. }
  set (π := λ v, if decide (v ∈ X) then c else v).
  assert (∀ x, eg_contains h x = true → π x = x) as Hπ.
  { intros x Hx%Vh. unfold π. case_decide; [|done]. destruct Hx as [_ [->|Hx]]; done. }
  (* every edge of the original graph is kept up to [π] *)
  assert (∀ x y, rtc (adj (eg_graph g)) x y → rtc (adj (eg_graph h)) (π x) (π y)) as R1.
  { intros x y Hst. induction Hst as [|x w y Hxw _ IH]; [done|]. etransitivity; [|exact IH]. unfold π.
    assert (adj (eg_graph g) w x) as Hwx by (by apply (wf_adj_sym _ Hg)).
    repeat case_decide; [done|..].
    - destruct (decide (w = c)) as [->|Hwc]; [done|]. apply rtc_once. apply A2; [done|]. split; [done|]. exists x. split; [by right|done].
    - destruct (decide (x = c)) as [->|Hxc]; [done|]. apply rtc_once. apply (wf_adj_sym _ Hh). apply A2; [done|]. split; [done|]. exists w. split; [by right|done].
    - apply rtc_once. destruct (decide (x = c)) as [->|Hxc].
      + destruct (decide (w = c)) as [->|Hwc]; [unfold adj; cbn; by rewrite A3|]. apply A2; [done|]. split; [done|]. exists c. split; [by left|done].
      + destruct (decide (w = c)) as [->|Hwc]; [|by apply A1]. apply (wf_adj_sym _ Hh). apply A2; [done|]. split; [done|]. exists c. split; [by left|done]. }
  assert (∀ x y, rtc (adj (eg_graph h)) x y → rtc (adj (eg_graph g)) x y) as R2.
  { intros x y Hst. induction Hst as [|x w y Hxw _ IH]; [done|]. etransitivity; [|exact IH].
    assert (∀ y, adj (eg_graph h) c y → rtc (adj (eg_graph g)) c y) as Hc1.
    { intros z Hz. destruct (decide (z = c)) as [->|Hzc]; [done|]. apply A2 in Hz as (_ & v & [->|Hv] & Hvz); [| |done].
      - by apply rtc_once.
      - eapply rtc_r; [by apply Hcv|exact Hvz]. }
    destruct (decide (x = c)) as [->|Hxc]; [by apply Hc1|]. destruct (decide (w = c)) as [->|Hwc].
    - apply Hsym, Hc1. by apply (wf_adj_sym _ Hh).
    - apply rtc_once. apply A1 in Hxw; [tauto|done|done]. }
  destruct (components_retract (eg_graph g) (eg_graph h) id Hg Hh) as (cs1 & cs2 & E1 & E2 & Hp).
  - intros x Hx%Vh. apply Hx.
  - intros x y Hx Hy. unfold id. split; [apply R2|]. intros Hst%R1. by rewrite (Hπ x Hx), (Hπ y Hy) in Hst.
  - intros u Hu. destruct (decide (u ∈ X)) as [HuX|HuX].
    + exists c. split; [apply (Vh c); auto|]. unfold id. by apply Hsym, Hcv.
    + exists u. split; [apply (Vh u); auto|]. done.
  - exists h, cs1, cs2. split_and!; [done..|]. rewrite Hp.
    destruct (C22_components (eg_graph g) Hg) as (cs' & Ecs' & _ & _ & _ & Hv & _). rewrite E1 in Ecs'. injection Ecs' as <-.
    apply reflexive_eq, list_fmap_ext. intros i Y HY. apply elem_of_list_lookup_2 in HY. apply set_eq. intros x.
    rewrite elem_of_filter, elem_of_list_to_set, (wf_vertices _ Hh). unfold vtx, id. cbn.
    rewrite Vh, !elem_of_difference, elem_of_list_to_set, elem_of_singleton. split.
    + intros (Hx & _ & Hx'). split; [done|]. tauto.
    + intros (Hx & Hx'). split; [done|]. split; [apply (Hv x); eauto|]. destruct (decide (x = c)); [by left|]. right. tauto.
Qed.

Lemma nrange_lookup lo n i x : nrange lo n !! i = Some x ↔ i < n ∧ x = (lo + N.of_nat i)%N.
Proof using Type.
  revert lo i. induction n as [|n IH]; intros lo [|i]; cbn; [split; [done|lia]..| |].
  - split; [intros [= <-]; lia|]. intros [_ ->]. f_equal. lia.
  - rewrite IH. lia.
Qed.
Lemma sub_path_lookup (u v lo k : N) q x : (u :: range lo (lo + k) ++ [v]) !! q = Some x ↔
  (q = 0 ∧ x = u) ∨ (1 ≤ q ≤ N.to_nat k ∧ x = (lo + N.of_nat (q - 1))%N) ∨ (q = S (N.to_nat k) ∧ x = v).
Proof using Type.
  destruct q as [|q].
  - cbn. split; [intros [= <-]; auto|]. intros [[_ ->]|[[? _]|[? _]]]; [done|lia|done].
  - change ((u :: range lo (lo + k) ++ [v]) !! S q) with ((range lo (lo + k) ++ [v]) !! q). replace (S q - 1) with q by lia. unfold range. replace (lo + k - lo)%N with k by lia. destruct (decide (q < N.to_nat k)).
    + rewrite lookup_app_l by (by rewrite nrange_length). rewrite nrange_lookup. split.
      * intros [_ ->]. right. left. split; [lia|done].
      * intros [[? _]|[[_ ->]|[? _]]]; [done|done|lia].
    + rewrite lookup_app_r by (rewrite nrange_length; lia). rewrite nrange_length. split.
      * intros E. apply list_lookup_singleton_Some in E as [? <-]. right. right. split; [lia|done].
      * intros [[? _]|[[? _]|[E ->]]]; [done|lia|]. apply list_lookup_singleton_Some. split; [lia|done].
Qed.

Lemma rel_list (R : N → N → Prop) (l : list N) : (∀ a b y, R a y → R b y → a = b) → NoDup l → (∀ a, a ∈ l → ∃ y, R a y) →
  ∃ l', NoDup l' ∧ length l' = length l ∧ ∀ y, y ∈ l' → ∃ a, a ∈ l ∧ R a y.
Proof using Type.
  intros HR. induction l as [|a l IH]; intros Hnd Hex.
  - exists []. split_and!; [constructor|done|set_solver].
  - apply NoDup_cons in Hnd as [Ha Hnd]. destruct IH as (l' & Hnd' & Hlen & Hl'); [done|intros b Hb; apply Hex; by right|].
    destruct (Hex a) as (y & Hy); [by left|]. exists (y :: l'). split_and!.
    + apply NoDup_cons. split; [|done]. intros (b & Hb & Eb)%Hl'. by rewrite (HR a b y Hy Eb) in Ha.
    + cbn. by rewrite Hlen.
    + intros z [->|Hz]%elem_of_cons; [exists a; split; [by left|done]|]. destruct (Hl' z Hz) as (b & Hb & Eb). exists b. split; [by right|done].
Qed.
Lemma min_degree_weaken (K : graph) H j j' : min_degree K H j → j' ≤ j → min_degree K H j'.
Proof using Type. intros Hm Hle v Hv. destruct (Hm v Hv) as (? & l & ? & ? & ?). split; [done|]. exists l. split_and!; [done|lia|done]. Qed.

Section subdivision.
Variables (G : graph) (k : N).
Hypotheses (Hwf : graph_wf G) (Hl : loopless G).
Hypothesis Hov : ∀ v, contains G v = true → (v + 1 + N.of_nat (num_edges G) * k < 2 ^ 32)%N.

(** The shape of the subdivided graph: [sd_at es b i q x] holds if [x] is the [q]-th vertex of the path replacing edge [i]. *)
Definition sd_at (es : list (N * N)) (b : N) (i q : nat) (x : N) : Prop :=
  ∃ u v, es !! i = Some (u, v) ∧
   ((q = 0 ∧ x = u) ∨ (1 ≤ q ≤ N.to_nat k ∧ x = (b + N.of_nat i * k + N.of_nat (q - 1))%N) ∨ (q = S (N.to_nat k) ∧ x = v)).

Lemma sd_spec : ∃ h es b, subdivide G k = Ok h ∧ eg_reachable h ∧
  NoDup es ∧ (∀ u v, (u, v) ∈ es ↔ (u <= v)%N ∧ adjacent G u v = true) ∧
  (∀ v, contains G v = true → (v < b)%N) ∧ length es = num_edges G ∧
  (∀ x, eg_contains h x = true ↔ contains G x = true ∨ (b <= x ∧ x < b + N.of_nat (num_edges G) * k)%N) ∧
  (∀ x y, eg_adjacent h x y = true ↔ ∃ i q, (sd_at es b i q x ∧ sd_at es b i (S q) y) ∨ (sd_at es b i q y ∧ sd_at es b i (S q) x)) ∧
  (∀ v, eg_contains h v = true → contains G v = false → eg_degree h v = 2).
Proof using Hi Hwf Hl Hov.
  destruct (C30_subdivide G k Hwf Hl Hov) as (h & es & b & Eh & Rh & Hnd & Hes & Hb & Vh & Ah & _ & _ & _ & Hd2).
  exists h, es, b. split_and!; try done.
  - destruct (wf_num_edges _ Hwf) as (E & HE & ->). unfold size, set_size. cbn. apply Permutation_length, NoDup_Permutation; [done|apply NoDup_elements|].
    intros [u v]. rewrite elem_of_elements, HE. apply Hes.
  - assert (∀ i q x u v, es !! i = Some (u, v) → (u :: range (b + N.of_nat i * k) (b + N.of_nat (S i) * k) ++ [v]) !! q = Some x ↔ sd_at es b i q x) as Hat.
    { intros i q x u v E. replace (b + N.of_nat (S i) * k)%N with (b + N.of_nat i * k + k)%N by lia. rewrite sub_path_lookup. unfold sd_at. split.
      - intros Hd. by exists u, v.
      - intros (u' & v' & E' & Hd). rewrite E in E'. by injection E' as <- <-. }
    intros x y. rewrite Ah. split.
    + intros (i & u & v & E & [(q & H1 & H2)|(q & H1 & H2)]); exists i, q; [left|right]; by rewrite <- !(Hat i _ _ u v E).
    + intros (i & q & [[H1 H2]|[H1 H2]]); pose proof H1 as (u & v & E & _); exists i, u, v; (split; [done|]); [left|right]; exists q; by rewrite !(Hat i _ _ u v E).
Qed.

Lemma sd_div i p : (p < k)%N → ((i * k + p) / k = i ∧ (i * k + p) mod k = p)%N.
Proof using Type.
  intros Hp. split.
  - rewrite N.div_add_l by lia. rewrite N.div_small by done. lia.
  - rewrite N.add_comm, N.mod_add by lia. by apply N.mod_small.
Qed.
(** Owner of a vertex of the subdivided graph: itself, or the first end of its edge. *)
Definition sd_src (es : list (N * N)) (b x : N) : N :=
  if decide (b <= x)%N then match es !! N.to_nat ((x - b) / k) with Some (u, _) => u | None => x end else x.

Section shape.
Variables (es : list (N * N)) (b : N).
Hypothesis Hes : ∀ u v, (u, v) ∈ es ↔ (u <= v)%N ∧ adjacent G u v = true.
Hypothesis Hb : ∀ v, contains G v = true → (v < b)%N.

Lemma sd_ends i u v : es !! i = Some (u, v) → (u <= v)%N ∧ adj G u v ∧ vtx G u ∧ vtx G v ∧ u ≠ v ∧ (u < b)%N ∧ (v < b)%N.
Proof using Hwf Hl Hes Hb.
  intros E. apply elem_of_list_lookup_2, Hes in E as [Hle Huv]. assert (vtx G u) as Hu by (by apply (wf_adj_vtx _ Hwf u v)).
  assert (vtx G v) as Hv by (by apply (wf_adj_vtx _ Hwf v u), (wf_adj_sym _ Hwf)).
  split_and!; [done..| |by apply Hb|by apply Hb]. intros ->. by apply (Hl v).
Qed.
Lemma sd_mid i q x : sd_at es b i q x → (b <= x)%N →
  1 ≤ q ≤ N.to_nat k ∧ N.to_nat ((x - b) / k) = i ∧ N.to_nat ((x - b) mod k) = q - 1.
Proof using Hwf Hl Hes Hb.
  intros (u & v & E & Hc) Hx. destruct (sd_ends i u v E) as (_ & _ & _ & _ & _ & ? & ?).
  destruct Hc as [[_ ->]|[[Hq ->]|[_ ->]]]; [lia| |lia]. split; [done|].
  replace (b + N.of_nat i * k + N.of_nat (q - 1) - b)%N with (N.of_nat i * k + N.of_nat (q - 1))%N by lia.
  destruct (sd_div (N.of_nat i) (N.of_nat (q - 1))) as [-> ->]; [lia|]. lia.
Qed.
Lemma sd_low i q x : sd_at es b i q x → (x < b)%N → ∃ u v, es !! i = Some (u, v) ∧ ((q = 0 ∧ x = u) ∨ (q = S (N.to_nat k) ∧ x = v)).
Proof using Type. intros (u & v & E & Hc) Hx. exists u, v. split; [done|]. destruct Hc as [?|[[_ ->]|?]]; [by left|lia|by right]. Qed.
Lemma sd_ex i q : i < length es → q ≤ S (N.to_nat k) → ∃ x, sd_at es b i q x.
Proof using Type.
  intros Hi' Hq. apply lookup_lt_is_Some in Hi' as [[u v] E]. destruct (decide (q = 0)) as [->|H0]; [exists u, u, v; auto|].
  destruct (decide (q = S (N.to_nat k))) as [->|H1]; [exists v, u, v; auto|]. eexists. exists u, v. split; [done|]. right. left. split; [lia|done].
Qed.
Lemma sd_fun i q x y : sd_at es b i q x → sd_at es b i q y → x = y.
Proof using Type.
  intros (u & v & E & Hc) (u' & v' & E' & Hc'). rewrite E in E'. injection E' as <- <-.
  destruct Hc as [[Q ->]|[[Q ->]|[Q ->]]], Hc' as [[Q' ->]|[[Q' ->]|[Q' ->]]]; try done; lia.
Qed.
Lemma sd_bound i q x : sd_at es b i q x → q ≤ S (N.to_nat k) ∧ i < length es.
Proof using Type. intros (u & v & E & Hc). split; [destruct Hc as [[? _]|[[? _]|[? _]]]; lia|by apply lookup_lt_Some in E]. Qed.
Lemma sd_src_at i q x u v : sd_at es b i q x → es !! i = Some (u, v) → sd_src es b x = if decide (q = S (N.to_nat k)) then v else u.
Proof using Hwf Hl Hes Hb.
  intros Hat E. destruct (sd_ends i u v E) as (_ & _ & _ & _ & _ & ? & ?). unfold sd_src. case_decide as Hx.
  - destruct (sd_mid i q x Hat Hx) as (Hq & -> & _). rewrite E. rewrite decide_False by lia. done.
  - destruct (sd_low i q x Hat ltac:(lia)) as (u' & v' & E' & Hc). rewrite E in E'. injection E' as <- <-.
    destruct Hc as [[-> ->]|[-> ->]]; case_decide; done.
Qed.
Lemma sd_interior x : (b <= x)%N → (x < b + N.of_nat (length es) * k)%N → ∃ i q, 1 ≤ q ≤ N.to_nat k ∧ sd_at es b i q x.
Proof using Type.
  clear Hov Hl Hwf. intros Hx Hx2. assert (0 < k)%N as Hk by (destruct (decide (k = 0%N)) as [->|]; lia).
  assert ((x - b) / k < N.of_nat (length es))%N as Hlt by (apply N.div_lt_upper_bound; lia).
  pose proof (N.mod_lt (x - b) k ltac:(lia)) as Hmod. pose proof (N.div_mod (x - b) k ltac:(lia)) as Hdm.
  generalize dependent ((x - b) / k)%N. intros d. generalize dependent ((x - b) mod k)%N. intros m Hm Hd Hdm.
  destruct (lookup_lt_is_Some_2 es (N.to_nat d)) as [[u v] E]; [lia|].
  exists (N.to_nat d), (S (N.to_nat m)). split; [lia|].
  exists u, v. split; [done|]. right. left. split; [lia|]. rewrite N2Nat.id. replace (S (N.to_nat m) - 1) with (N.to_nat m) by lia. rewrite N2Nat.id. lia.
Qed.
Lemma sd_inj i q q' x : sd_at es b i q x → sd_at es b i q' x → q = q'.
Proof using Hwf Hl Hes Hb.
  intros H1 H2. destruct (decide (b <= x)%N) as [Hx|Hx].
  - destruct (sd_mid i q x H1 Hx) as (? & _ & E1), (sd_mid i q' x H2 Hx) as (? & _ & E2). lia.
  - destruct (sd_low i q x H1 ltac:(lia)) as (u & v & E & Hc), (sd_low i q' x H2 ltac:(lia)) as (u' & v' & E' & Hc').
    rewrite E in E'. injection E' as <- <-. destruct (sd_ends i u v E) as (_ & _ & _ & _ & Hne & _).
    destruct Hc as [[-> ->]|[-> ->]], Hc' as [[-> E']|[-> E']]; done.
Qed.
(** Edge [i] joins [x] and [w]. *)
Definition sd_edge (x w : N) (i : nat) : Prop := es !! i = Some (x, w) ∨ es !! i = Some (w, x).
Lemma sd_edge_other x w w' i : sd_edge x w i → sd_edge x w' i → w = w'.
Proof using Type.
  intros [E1|E1] [E2|E2]; rewrite E1 in E2.
  - by injection E2.
  - injection E2 as -> <-. done.
  - injection E2 as -> <-. done.
  - by injection E2.
Qed.
Lemma sd_edge_index x w i j : NoDup es → sd_edge x w i → sd_edge x w j → i = j.
Proof using Hwf Hl Hes Hb.
  intros Hnd [E1|E1] [E2|E2].
  - by eapply NoDup_lookup.
  - destruct (sd_ends _ _ _ E1) as (? & _ & _ & _ & Hne & _), (sd_ends _ _ _ E2) as (? & _). lia.
  - destruct (sd_ends _ _ _ E1) as (? & _ & _ & _ & Hne & _), (sd_ends _ _ _ E2) as (? & _). lia.
  - by eapply NoDup_lookup.
Qed.
Lemma sd_edge_adj x w : adj G x w → ∃ i, sd_edge x w i.
Proof using Hwf Hes.
  intros Hxw. destruct (decide (x <= w)%N).
  - assert ((x, w) ∈ es) as (i & E)%elem_of_list_lookup by (by apply Hes). exists i. by left.
  - assert ((w, x) ∈ es) as (i & E)%elem_of_list_lookup by (apply Hes; split; [lia|by apply (wf_adj_sym _ Hwf)]). exists i. by right.
Qed.
Lemma sd_edge_adj' x w i : sd_edge x w i → adj G x w.
Proof using Hwf Hl Hes Hb. intros [E|E]; destruct (sd_ends _ _ _ E) as (_ & Ha & _); [done|by apply (wf_adj_sym _ Hwf)]. Qed.
End shape.

(** Subdividing every edge [k] times: bipartite if [k] is odd, and otherwise as before. *)
Theorem C93_subdivide_bipartite : ∃ h, subdivide G k = Ok h ∧
  ((∃ L R, is_bipartite (eg_graph h) = Ok (Bipartition L R)) ↔ N.odd k = true ∨ (∃ L R, is_bipartite G = Ok (Bipartition L R))).
Proof using Hi Hwf Hl Hov.
  destruct sd_spec as (h & es & b & Eh & Rh & Hnd & Hes & Hb & Hlen & Vh & Ah & _). exists h. split; [done|].
  rewrite (C25_iff_two_colourable (eg_graph h) (C10_reachable_wf h Rh)), (C25_iff_two_colourable G Hwf).
  assert (Nat.odd (N.to_nat k) = N.odd k) as Hodd.
  { rewrite <- (N2Nat.id k) at 2. generalize (N.to_nat k). intros n. clear. induction n as [|n IH]; [done|].
    rewrite Nat2N.inj_succ, N.odd_succ, <- N.negb_odd, Nat.odd_succ, <- Nat.negb_odd, IH. done. }
  split.
  - intros (f & Hf). destruct (N.odd k) eqn:Ek; [by left|right]. exists f.
    assert (∀ i u v, es !! i = Some (u, v) → f u ≠ f v) as Hpath.
    { intros i u v E. assert (∀ q x, q ≤ S (N.to_nat k) → sd_at es b i q x → f x = xorb (f u) (Nat.odd q)) as Hq.
      { intros q. induction q as [|q IH]; intros x Hq Hat.
        - assert (x = u) as ->; [|by destruct (f u)]. apply (sd_fun es b i 0 x u Hat). exists u, v. auto.
        - destruct (sd_ex es b i q) as (y & Hy); [by apply lookup_lt_Some in E|lia|].
          assert (f y ≠ f x) as Hne by (apply Hf, (Ah y x); exists i, q; by left).
          rewrite (IH y) in Hne; [|lia|done]. rewrite Nat.odd_succ, <- Nat.negb_odd. destruct (f u), (Nat.odd q), (f x); done. }
      rewrite (Hq (S (N.to_nat k)) v); [|done|exists u, v; auto]. rewrite Nat.odd_succ, <- Nat.negb_odd, Hodd. by destruct (f u). }
    intros u v Huv. destruct (decide (u <= v)%N) as [Hle|Hgt].
    + assert ((u, v) ∈ es) as (i & E)%elem_of_list_lookup by (by apply Hes). by eapply Hpath.
    + assert ((v, u) ∈ es) as (i & E)%elem_of_list_lookup by (apply Hes; split; [lia|by apply (wf_adj_sym _ Hwf)]).
      apply not_eq_sym. by eapply Hpath.
  - intros Hor. assert (∃ f : N → bool, ∀ u v, adj G u v → f v = xorb (f u) (negb (N.odd k))) as (f & Hf).
    { destruct (N.odd k) eqn:Ek; [by exists (λ _, false)|]. destruct Hor as [?|(f & Hf)]; [done|]. exists f. intros u v Huv.
      specialize (Hf u v Huv). destruct (f u), (f v); done. }
    set (F := λ x, if decide (b <= x)%N then xorb (f (sd_src es b x)) (Nat.odd (S (N.to_nat ((x - b) mod k)))) else f x).
    assert (∀ i q x u v, es !! i = Some (u, v) → sd_at es b i q x → F x = xorb (f u) (Nat.odd q)) as HF.
    { intros i q x u v E Hat. destruct (sd_ends es b Hes Hb i u v E) as (_ & Huv & _). unfold F. case_decide as Hx.
      - destruct (sd_mid es b Hes Hb i q x Hat Hx) as (Hq & _ & ->). rewrite (sd_src_at es b Hes Hb i q x u v Hat E).
        rewrite decide_False by lia. by replace (S (q - 1)) with q by lia.
      - destruct (sd_low es b i q x Hat ltac:(lia)) as (u' & v' & E' & Hc). rewrite E in E'. injection E' as <- <-.
        destruct Hc as [[-> ->]|[-> ->]]; [by destruct (f u)|]. rewrite Nat.odd_succ, <- Nat.negb_odd, Hodd. by apply Hf. }
    exists F. intros x y (i & q & Hc)%Ah.
    assert (∀ x y, sd_at es b i q x → sd_at es b i (S q) y → F x ≠ F y) as Hst.
    { intros x' y' Hx Hy. pose proof Hx as (u & v & E & _). rewrite (HF i q x' u v E Hx), (HF i (S q) y' u v E Hy), Nat.odd_succ, <- Nat.negb_odd.
      destruct (f u), (Nat.odd q); done. }
    destruct Hc as [[Hx Hy]|[Hx Hy]]; [by apply Hst|]. apply not_eq_sym. by apply Hst.
Qed.

(** Subdividing keeps the components, each extended by the new vertices of its edges. *)
Theorem C93_subdivide_components : ∃ h cs1 cs2, subdivide G k = Ok h ∧ components G = Ok cs1 ∧ components (eg_graph h) = Ok cs2 ∧
  length cs2 = length cs1 ∧ ∀ X, X ∈ cs1 → ∃ Y, Y ∈ cs2 ∧ ∀ v, contains G v = true → v ∈ Y ↔ v ∈ X.
Proof using Hi Hwf Hl Hov.
  destruct sd_spec as (h & es & b & Eh & Rh & Hnd & Hes & Hb & Hlen & Vh & Ah & _). pose proof (C10_reachable_wf h Rh) as Hh.
  assert (∀ v, contains G v = true → sd_src es b v = v) as Hsrc.
  { intros v Hv%Hb. unfold sd_src. rewrite decide_False by lia. done. }
  assert (∀ u v, rtc (adj (eg_graph h)) u v → rtc (adj (eg_graph h)) v u) as Hsym.
  { intros u v Huv. induction Huv as [|u w v Huw _ IH]; [done|]. eapply rtc_r; [exact IH|]. by apply (wf_adj_sym _ Hh). }
  assert (∀ i q x u v, es !! i = Some (u, v) → sd_at es b i q x → rtc (adj (eg_graph h)) u x) as Hwalk.
  { intros i q x u v E. revert x. induction q as [|q IH]; intros x Hat.
    - assert (x = u) as ->; [|done]. apply (sd_fun es b i 0 x u Hat). exists u, v. auto.
    - destruct (sd_bound es b i (S q) x Hat) as [Hq Hi']. destruct (sd_ex es b i q Hi' ltac:(lia)) as (y & Hy).
      eapply rtc_r; [by apply IH|]. apply (Ah y x). exists i, q. by left. }
  assert (∀ x, vtx (eg_graph h) x → vtx G (sd_src es b x) ∧ rtc (adj (eg_graph h)) (sd_src es b x) x) as Hown.
  { intros x [Hx|[Hx1 Hx2]]%Vh; [rewrite Hsrc by done; by split|]. rewrite <- Hlen in Hx2.
    destruct (sd_interior es b x Hx1 Hx2) as (i & q & Hq & Hat). pose proof Hat as (u & v & E & _).
    destruct (sd_ends es b Hes Hb i u v E) as (_ & _ & Hu & _). rewrite (sd_src_at es b Hes Hb i q x u v Hat E), decide_False by lia.
    split; [done|]. by eapply Hwalk. }
  destruct (components_retract G (eg_graph h) (sd_src es b) Hwf Hh) as (cs1 & cs2 & E1 & E2 & Hp).
  - intros x Hx. by apply Hown.
  - intros x y Hx Hy. split.
    + intros Hst. clear Hx Hy. induction Hst as [|x w y Hxw _ IH]; [done|]. etransitivity; [|exact IH].
      apply (Ah x w) in Hxw as (i & q & Hc).
      assert (∀ x y, sd_at es b i q x → sd_at es b i (S q) y → sd_src es b x = sd_src es b y ∨ adj G (sd_src es b x) (sd_src es b y)) as Hone.
      { intros x' y' H1 H2. pose proof H1 as (u & v & E & _). destruct (sd_ends es b Hes Hb i u v E) as (_ & Huv & _).
        rewrite (sd_src_at es b Hes Hb i q x' u v H1 E), (sd_src_at es b Hes Hb i (S q) y' u v H2 E).
        destruct (sd_bound es b i (S q) y' H2). rewrite decide_False by lia. case_decide; auto. }
      destruct Hc as [[Hx Hy]|[Hx Hy]].
      * destruct (Hone _ _ Hx Hy) as [->|?]; [done|by apply rtc_once].
      * destruct (Hone _ _ Hx Hy) as [->|?]; [done|]. apply rtc_once. by apply (wf_adj_sym _ Hwf).
    + intros Hst. etransitivity; [apply Hsym, Hown, Hx|]. etransitivity; [|apply Hown, Hy].
      clear Hx Hy. induction Hst as [|u w v Huw _ IH]; [done|]. etransitivity; [|exact IH].
      destruct (decide (u <= w)%N) as [Hle|Hgt].
      * assert ((u, w) ∈ es) as (i & E)%elem_of_list_lookup by (by apply Hes). apply (Hwalk i (S (N.to_nat k)) w u w E). exists u, w. auto.
      * assert ((w, u) ∈ es) as (i & E)%elem_of_list_lookup by (apply Hes; split; [lia|by apply (wf_adj_sym _ Hwf)]).
        apply Hsym. apply (Hwalk i (S (N.to_nat k)) u w u E). exists w, u. auto.
  - intros u Hu. exists u. rewrite Hsrc by done. split; [|done]. apply (Vh u). by left.
  - exists h, cs1, cs2. split_and!; [done..| |].
    + rewrite Hp. by rewrite fmap_length.
    + intros X HX. eexists. split; [rewrite Hp; by apply elem_of_list_fmap_1|]. intros v Hv.
      rewrite elem_of_filter, elem_of_list_to_set, (wf_vertices _ Hh), Hsrc by done. split; [tauto|]. intros Hv'. split; [done|]. apply (Vh v). by left.
Qed.

(** Subdividing every edge at least once: the degeneracy is that of the graph, cut off at two. *)
Theorem C93_subdivide_degeneracy lo up order core : (0 < k)%N → (∃ v, contains G v = true) →
  degeneracy G = Ok (lo, up, order, core) →
  ∃ h order' core', subdivide G k = Ok h ∧ degeneracy (eg_graph h) = Ok (min 2 up, min 2 up, order', core').
Proof using Hi Hwf Hl Hov.
  intros Hk [v0 Hv0] Hd. destruct sd_spec as (h & es & b & Eh & Rh & Hnd & Hes & Hb & Hlen & Vh & Ah & Hd2). pose proof (C10_reachable_wf h Rh) as Hh.
  assert (loopless (eg_graph h)) as Hlh.
  { intros x (i & q & Hc)%Ah. assert (sd_at es b i q x ∧ sd_at es b i (S q) x) as [H1 H2] by (by destruct Hc).
    pose proof (sd_inj es b Hes Hb i q (S q) x H1 H2). lia. }
  (* neighbours of an old vertex *)
  assert (∀ x y, adj (eg_graph h) x y → (x < b)%N → (b <= y)%N ∧ ∃ i q w, sd_at es b i q y ∧ sd_edge es x w i ∧ q = (if decide (es !! i = Some (x, w)) then 1 else N.to_nat k)) as Hold.
  { intros x y (i & q & [[H1 H2]|[H1 H2]])%Ah Hx.
    - destruct (sd_low es b i q x H1 Hx) as (u & v & E & [[-> ->]|[-> ->]]); [|destruct (sd_bound es b i _ y H2); lia].
      split; [destruct H2 as (? & ? & _ & [[? _]|[[_ ->]|[? _]]]); lia|]. exists i, 1, v. split_and!; [done|by left|by rewrite decide_True].
    - destruct (sd_low es b i (S q) x H1 Hx) as (u & v & E & [[? ->]|[Hq ->]]) || destruct (sd_low es b i (S q) x H2 Hx) as (u & v & E & [[? ->]|[Hq ->]]); [done|].
      assert (q = N.to_nat k) as -> by lia. destruct (sd_ends es b Hes Hb i u v E) as (_ & _ & _ & _ & Hne & _).
      split; [destruct H1 as (? & ? & _ & [[? _]|[[_ ->]|[? _]]]); lia|]. exists i, (N.to_nat k), u. split_and!; [done|by right|].
      rewrite decide_False; [done|]. rewrite E. intros [= ? ?]. congruence. }
  assert (∀ x w i, sd_edge es x w i → ∃ y, adj (eg_graph h) x y ∧ (b <= y)%N ∧ ∃ q, sd_at es b i q y) as Hnew.
  { intros x w i [E|E].
    - destruct (sd_ex es b i 1) as (y & Hy); [by apply lookup_lt_Some in E|lia|]. exists y. split_and!.
      + apply (Ah x y). exists i, 0. left. split; [exists x, w; auto|done].
      + destruct Hy as (? & ? & _ & [[? _]|[[_ ->]|[? _]]]); lia.
      + eauto.
    - destruct (sd_ex es b i (N.to_nat k)) as (y & Hy); [by apply lookup_lt_Some in E|lia|]. exists y. split_and!.
      + apply (Ah x y). exists i, (N.to_nat k). right. split; [done|]. exists w, x. auto.
      + destruct Hy as (? & ? & _ & [[? _]|[[_ ->]|[? _]]]); lia.
      + eauto. }
  assert (∀ x, contains G x = true → vtx (eg_graph h) x) as Hin by (intros x Hx; apply (Vh x); by left).
  destruct (C24_lower_bound G lo up order core Hwf Hl Hd (ex_intro _ v0 Hv0)) as (_ & H & HH & HHm & _).
  assert (∃ H', H' ≠ ∅ ∧ min_degree (eg_graph h) H' (min 2 up)) as (H1 & HH1 & HHm1).
  { destruct up as [|[|up]].
    - exists {[v0]}. split; [set_solver|]. intros v ->%elem_of_singleton. split; [by apply Hin|]. exists []. split_and!; [constructor|cbn; lia|set_solver].
    - apply set_choose_L in HH as (u & Hu). destruct (HHm u Hu) as (Huv & [|w l] & _ & Hl' & Hw); [cbn in Hl'; lia|].
      destruct (Hw w) as [_ (i & Hi')%(sd_edge_adj es Hes)]; [by left|]. destruct (Hnew u w i Hi') as (y & Huy & _).
      exists {[u; y]}. split; [set_solver|]. intros x Hx. rewrite elem_of_union, !elem_of_singleton in Hx.
      assert (∃ z, (z = u ∨ z = y) ∧ adj (eg_graph h) x z) as (z & Hz & Hxz).
      { destruct Hx as [->| ->]; [by exists y; auto|]. exists u. split; [auto|]. by apply (wf_adj_sym _ Hh). }
      split; [by apply (wf_adj_vtx _ Hh x z)|]. exists [z]. split_and!; [apply NoDup_singleton|cbn; lia|].
      intros a ->%elem_of_list_singleton. by rewrite elem_of_union, !elem_of_singleton.
    - set (Q := λ x, if decide (b <= x)%N then match es !! N.to_nat ((x - b) / k) with Some (u, v) => u ∈ H ∧ v ∈ H | None => False end else x ∈ H).
      assert (∀ x, Decision (Q x)) as HQ by (intros x; unfold Q; case_decide; [destruct (es !! _) as [[u v]|]|]; apply _).
      assert (∀ i q x u v, sd_at es b i q x → es !! i = Some (u, v) → u ∈ H → v ∈ H → Q x) as HQat.
      { intros i q x u v Hat E Hu Hv. unfold Q. case_decide as Hx.
        - destruct (sd_mid es b Hes Hb i q x Hat Hx) as (_ & -> & _). by rewrite E.
        - destruct (sd_low es b i q x Hat ltac:(lia)) as (u' & v' & E' & Hc). rewrite E in E'. injection E' as <- <-. destruct Hc as [[_ ->]|[_ ->]]; done. }
      assert (∀ v, v ∈ H → contains G v = true) as HinG by (intros v Hv; by apply HHm).
      exists (filter Q (list_to_set (vertices (eg_graph h)))).
      assert (∀ x, x ∈ filter Q (list_to_set (vertices (eg_graph h)) : gset N) ↔ Q x ∧ vtx (eg_graph h) x) as HW.
      { intros x. rewrite elem_of_filter, elem_of_list_to_set, (wf_vertices _ Hh). done. }
      split.
      + intros E. apply set_choose_L in HH as (u & Hu). assert (u ∈ filter Q (list_to_set (vertices (eg_graph h)) : gset N)) as Hbad.
        * apply HW. split; [|by apply Hin, HinG]. unfold Q. rewrite decide_False; [done|]. pose proof (Hb u (HinG u Hu)). lia.
        * rewrite E in Hbad. by apply elem_of_empty in Hbad.
      + intros x [HQx Hx]%HW. split; [done|]. destruct (decide (b <= x)%N) as [Hbx|Hbx].
        * pose proof Hx as Hx'. apply (Vh x) in Hx' as [Hx'|[_ Hx2]]; [pose proof (Hb x Hx'); lia|]. rewrite <- Hlen in Hx2.
          destruct (sd_interior es b x Hbx Hx2) as (i & q & Hq & Hat). pose proof Hat as (u & v & E & _).
          assert (u ∈ H ∧ v ∈ H) as [Hu Hv].
          { unfold Q in HQx. rewrite decide_True in HQx by done. destruct (sd_mid es b Hes Hb i q x Hat Hbx) as (_ & Ei & _). by rewrite Ei, E in HQx. }
          pose proof (lookup_lt_Some _ _ _ E) as Hi'.
          destruct (sd_ex es b i (q - 1) Hi' ltac:(lia)) as (y & Hy), (sd_ex es b i (S q) Hi' ltac:(lia)) as (z & Hz).
          assert (adj (eg_graph h) x y) as Hxy by (apply (Ah x y); exists i, (q - 1); right; split; [done|by replace (S (q - 1)) with q by lia]).
          assert (adj (eg_graph h) x z) as Hxz by (apply (Ah x z); exists i, q; by left).
          exists [y; z]. split_and!; [|cbn; lia|].
          -- apply NoDup_cons. split; [|apply NoDup_singleton]. rewrite elem_of_list_singleton. intros ->.
             pose proof (sd_inj es b Hes Hb i _ _ z Hy Hz). lia.
          -- intros a [->|Ha]%elem_of_cons; [|apply elem_of_list_singleton in Ha as ->]; (split; [|done]); apply HW; (split; [by eapply HQat|]).
             ++ by apply (wf_adj_vtx _ Hh y x), (wf_adj_sym _ Hh).
             ++ by apply (wf_adj_vtx _ Hh z x), (wf_adj_sym _ Hh).
        * assert (x ∈ H) as HxH by (unfold Q in HQx; by rewrite decide_False in HQx).
          destruct (HHm x HxH) as (_ & l & Hndl & Hlen2 & Hlw).
          destruct (rel_list (λ w y, ∃ i q, sd_edge es x w i ∧ w ∈ H ∧ sd_at es b i q y ∧ (b <= y)%N ∧ adj (eg_graph h) x y) l) as (l' & Hndl' & Hlen' & Hl').
          -- intros a a' y (i & q & Ei & _ & Hat & Hy & _) (j & q' & Ej & _ & Hat' & _ & _).
             destruct (sd_mid es b Hes Hb i q y Hat Hy) as (_ & I1 & _), (sd_mid es b Hes Hb j q' y Hat' Hy) as (_ & I2 & _).
             assert (i = j) as -> by lia. by eapply sd_edge_other.
          -- done.
          -- intros w Hw. destruct (Hlw w Hw) as [HwH (i & Hi')%(sd_edge_adj es Hes)]. destruct (Hnew x w i Hi') as (y & Hxy & Hby & q & Hq).
             exists y, i, q. done.
          -- exists l'. split_and!; [done|lia|]. intros y (w & _ & i & q & Ei & HwH & Hat & _ & Hxy)%Hl'. split; [|done]. apply HW. split.
             ++ destruct Ei as [Ei|Ei]; by eapply HQat.
             ++ by apply (wf_adj_vtx _ Hh y x), (wf_adj_sym _ Hh). }
  destruct (degeneracy_value (eg_graph h) H1 (min 2 up) Hh Hlh HH1 HHm1 ltac:(lia)) as (o & c & Ed); [|by exists h, o, c].
  intros H' j HH' Hm'.
  assert (j ≤ 2) as Hj2.
  { apply (md_rank (eg_graph h) id (λ v, if decide ((b <= v)%N ∧ eg_contains h v = true) then nbrs (eg_graph h) v else []) 2 H' j HH' Hm').
    - intros v u Hv Hu Hvu Hle. unfold id in Hle. assert (vtx (eg_graph h) v) as Hvv by (by apply (wf_adj_vtx _ Hh v u)).
      destruct (decide (b <= v)%N) as [Hbv|Hbv].
      + rewrite decide_True by done. by apply (nbrs_spec _ _ Hh Hvv).
      + destruct (Hold v u Hvu ltac:(lia)) as [? _]. lia.
    - intros v. case_decide as Hc; [|cbn; lia]. destruct Hc as [Hbv Hvv].
      assert (degree (eg_graph h) v = 2) as <-.
      { apply Hd2; [done|]. apply not_true_iff_false. intros Hcv%Hb. lia. }
      destruct (nbrs_spec (eg_graph h) v Hh Hvv) as (_ & _ & _ & Hdeg). rewrite Hdeg by apply Hlh. done. }
  destruct (decide (2 ≤ up)) as [|Hup]; [lia|]. replace (min 2 up) with up by lia.
  destruct (C24_exact_small G lo up order core Hwf Hl Hd (ex_intro _ v0 Hv0) ltac:(lia)) as (_ & _ & Xmax & _).
  destruct (decide (j = 0)) as [->|Hj0]; [lia|].
  (* an edge of the subdivided graph comes from an edge *)
  assert (1 ≤ up) as Hup1.
  { apply set_choose_L in HH' as (x & Hx). destruct (Hm' x Hx) as (_ & [|y l] & _ & Hl' & Hy); [cbn in Hl'; lia|].
    destruct (Hy y) as [_ Hxy]; [by left|]. apply (Ah x y) in Hxy as (i & q & Hc).
    assert (∃ x, sd_at es b i q x) as (z & u & v & E & _) by (destruct Hc as [[? _]|[? _]]; eauto).
    destruct (sd_ends es b Hes Hb i u v E) as (_ & Huv & Hu & Hv & _). apply (Xmax {[u; v]} 1); [set_solver|].
    intros a Ha. rewrite elem_of_union, !elem_of_singleton in Ha.
    assert (∃ z, (z = u ∨ z = v) ∧ adj G a z) as (z' & Hz & Haz).
    { destruct Ha as [->| ->]; [by exists v; auto|]. exists u. split; [auto|]. by apply (wf_adj_sym _ Hwf). }
    split; [by apply (wf_adj_vtx _ Hwf a z')|]. exists [z']. split_and!; [apply NoDup_singleton|done|].
    intros d ->%elem_of_list_singleton. by rewrite elem_of_union, !elem_of_singleton. }
  destruct (decide (j = 1)) as [->|Hj1]; [done|]. assert (j = 2) as -> by lia. exfalso.
  (* with minimum degree two, a path met in the inside is contained up to its ends *)
  assert (∀ i q x y z, x ∈ H' → sd_at es b i q x → 1 ≤ q ≤ N.to_nat k → sd_at es b i (q - 1) y → sd_at es b i (S q) z → y ∈ H' ∧ z ∈ H') as Hstep.
  { intros i q x y z Hx Hat Hq Hy Hz. destruct (Hm' x Hx) as (_ & l & Hndl & Hl2 & Hlw).
    assert (b <= x)%N as Hbx by (destruct Hat as (? & ? & _ & [[? _]|[[_ ->]|[? _]]]); lia).
    assert (∀ w, w ∈ l → w = y ∨ w = z) as Hw.
    { intros w Hw. destruct (Hlw w Hw) as [_ (i' & q' & Hc)%Ah].
      destruct Hc as [[A1 A2]|[A1 A2]].
      - destruct (sd_mid es b Hes Hb i' q' x A1 Hbx) as (_ & I1 & Q1), (sd_mid es b Hes Hb i q x Hat Hbx) as (_ & I2 & Q2).
        assert (i' = i) as -> by congruence. pose proof (sd_inj es b Hes Hb i q' q x A1 Hat) as ->. right. by eapply sd_fun.
      - destruct (sd_mid es b Hes Hb i' (S q') x A2 Hbx) as (_ & I1 & Q1), (sd_mid es b Hes Hb i q x Hat Hbx) as (_ & I2 & Q2).
        assert (i' = i) as -> by congruence. pose proof (sd_inj es b Hes Hb i (S q') q x A2 Hat) as <-. left. replace (S q' - 1) with q' in Hy by lia. by eapply sd_fun. }
    destruct l as [|a [|a' l]]; [cbn in Hl2; lia..|]. apply NoDup_cons in Hndl as [Hne Hndl].
    assert (a ≠ a') as Haa by set_solver. destruct (Hlw a) as [Ha _]; [by left|]. destruct (Hlw a') as [Ha' _]; [by right; left|].
    destruct (Hw a) as [-> | ->]; [by left| |]; (destruct (Hw a') as [-> | ->]; [by right; left|..]); done. }
  assert (∀ i q x, x ∈ H' → sd_at es b i q x → 1 ≤ q ≤ N.to_nat k → ∀ u v, es !! i = Some (u, v) → u ∈ H' ∧ v ∈ H') as Hends.
  { intros i q x Hx Hat Hq u v E. pose proof (lookup_lt_Some _ _ _ E) as Hi'. split.
    - revert x Hx Hat. induction q as [|q IH]; intros x Hx Hat; [lia|].
      destruct (sd_ex es b i q Hi' ltac:(lia)) as (y & Hy), (sd_ex es b i (S (S q)) Hi' ltac:(lia)) as (z & Hz).
      destruct (Hstep i (S q) x y z Hx Hat Hq) as [Hy' _]; [by replace (S q - 1) with q by lia|done|].
      destruct (decide (q = 0)) as [->|]; [|apply (IH ltac:(lia) y Hy' Hy)].
      assert (y = u) as <-; [|done]. apply (sd_fun es b i 0 y u Hy). exists u, v. auto.
    - remember (N.to_nat k - q) as d eqn:Ed. revert q x Hq Ed Hx Hat. induction d as [|d IH]; intros q x Hq Ed Hx Hat;
      destruct (sd_ex es b i (q - 1) Hi' ltac:(lia)) as (y & Hy), (sd_ex es b i (S q) Hi' ltac:(lia)) as (z & Hz);
      destruct (Hstep i q x y z Hx Hat Hq Hy Hz) as [_ Hz'].
      + assert (z = v) as <-; [|done]. apply (sd_fun es b i (S q) z v Hz). exists u, v. split; [done|]. right. right. split; [lia|done].
      + apply (IH (S q) z); [lia|lia|done|done]. }
  assert (∀ x, x ∈ H' → (b <= x)%N → ∃ i q u v, 1 ≤ q ≤ N.to_nat k ∧ sd_at es b i q x ∧ es !! i = Some (u, v)) as Hint.
  { intros x Hx Hbx. destruct (Hm' x Hx) as (Hxv & _). apply (Vh x) in Hxv as [Hxv|[_ Hx2]]; [pose proof (Hb x Hxv); lia|]. rewrite <- Hlen in Hx2.
    destruct (sd_interior es b x Hbx Hx2) as (i & q & Hq & Hat). pose proof Hat as (u & v & E & _). by exists i, q, u, v. }
  assert (2 ≤ up); [|lia]. apply (Xmax (filter (λ x, (x < b)%N) H')).
  - apply set_choose_L in HH' as (x & Hx). assert (∃ u, u ∈ H' ∧ (u < b)%N) as (u & Hu & Hub).
    { destruct (decide (b <= x)%N) as [Hbx|Hbx]; [|exists x; split; [done|lia]].
      destruct (Hint x Hx Hbx) as (i & q & u & v & Hq & Hat & E). destruct (Hends i q x Hx Hat Hq u v E) as [Hu _].
      destruct (sd_ends es b Hes Hb i u v E) as (_ & _ & _ & _ & _ & ? & _). eauto. }
    intros E. assert (u ∈ filter (λ x, (x < b)%N) H') as Hbad by (by apply elem_of_filter). rewrite E in Hbad. by apply elem_of_empty in Hbad.
  - intros x [Hxb Hx]%elem_of_filter. destruct (Hm' x Hx) as (Hxv & l & Hndl & Hl2 & Hlw).
    split; [by apply (Vh x) in Hxv as [Hxv|[? _]]; [|lia]|].
    destruct (rel_list (λ y w, y ∈ H' ∧ adj (eg_graph h) x y ∧ ∃ i q, sd_at es b i q y ∧ sd_edge es x w i ∧ q = (if decide (es !! i = Some (x, w)) then 1 else N.to_nat k)) l) as (l' & Hndl' & Hlen' & Hl').
    + intros y y' w (_ & _ & i & q & Hat & Ei & Hq) (_ & _ & i' & q' & Hat' & Ei' & Hq').
      assert (i = i') as <- by (by eapply (sd_edge_index es b Hes Hb)). rewrite <- Hq' in Hq. subst q. by eapply sd_fun.
    + done.
    + intros y Hy. destruct (Hlw y Hy) as [HyH Hxy]. destruct (Hold x y Hxy Hxb) as (_ & i & q & w & Hat & Ei & Hq). exists w. split_and!; [done|done|]. by exists i, q.
    + exists l'. split_and!; [done|lia|]. intros w (y & _ & HyH & Hxy & i & q & Hat & Ei & Hq)%Hl'.
      assert (1 ≤ q ≤ N.to_nat k) as Hq' by (rewrite Hq; case_decide; lia). split; [|by eapply (sd_edge_adj' es b Hes Hb)].
      destruct Ei as [E|E]; destruct (Hends i q y HyH Hat Hq' _ _ E) as [? ?]; destruct (sd_ends es b Hes Hb i _ _ E) as (_ & _ & _ & _ & _ & ? & ?); by apply elem_of_filter.
Qed.
End subdivision.

(** ** C93: the grid is the cartesian product of two paths, read row by row *)
Theorem C93_grid_is_product (s t : N) : (0 < s)%N → (0 < t)%N → (s * t < 4294967296)%N →
  ∃ p q g h inv, eg_path s = Ok p ∧ eg_path t = Ok q ∧ eg_grid s t = Ok g ∧
    cartesian_product (eg_graph p) (eg_graph q) = Ok (h, inv) ∧
    renames (λ x, match inv !! x with Some (r, c) => r * t + c | None => 0 end)%N (eg_graph h) (eg_graph g).
Proof.
  intros Hs Ht Hst. destruct (C15_path s) as (p & Ep & Rp & Vp & Ap), (C15_path t) as (q & Eq & Rq & Vq & Aq).
  destruct (grid_produces s t Hst) as (g & Eg & Rg & Vg & Ag).
  assert (∀ n r, (r < n)%N → ∀ (e : editgraph), eg_reachable e → (∀ x, eg_contains e x = true ↔ (x < n)%N) → eg_num_vertices e = N.to_nat n) as Hnum.
  { intros n _ _ e Re Ve. pose proof (C10_reachable_wf e Re) as Hw. pose proof (wf_num_vertices _ Hw) as Hnv. cbn [num_vertices eg_graph] in Hnv. rewrite Hnv.
    assert (vertices (eg_graph e) ≡ₚ nrange 0 (N.to_nat n)) as ->; [|by rewrite nrange_length].
    apply NoDup_Permutation; [apply (wf_vertices_nodup _ Hw)|apply NoDup_nrange|]. intros x. rewrite (wf_vertices _ Hw), elem_of_nrange. unfold vtx. cbn.
    rewrite Ve. lia. }
  destruct (C31_cartesian_partial (eg_graph p) (eg_graph q) (C10_reachable_wf p Rp) (C10_reachable_wf q Rq)) as (h & inv & Eh & Rh & Hinv & Hinj & Vh & Ah).
  { cbn [num_vertices eg_graph]. rewrite (Hnum s 0%N Hs p Rp Vp), (Hnum t 0%N Ht q Rq Vq). change (2 ^ 32)%N with 4294967296%N. lia. }
  exists p, q, g, h, inv. split_and!; [done..|]. cbn [contains adjacent eg_graph] in Hinv, Vh, Ah.
  assert (∀ x r c, inv !! x = Some (r, c) → (r < s ∧ c < t)%N) as Hrc.
  { intros x r c Hx. destruct (proj1 (Hinv r c)) as [Hr%Vp Hc%Vq]; [eauto|done]. }
  split_and!; cbn [contains adjacent eg_graph].
  - intros x y (r & c & Hx & _)%Vh (r' & c' & Hy & _)%Vh. rewrite Hx, Hy. intros E.
    destruct (Hrc x r c Hx), (Hrc y r' c' Hy). destruct (grid_div t r c) as [D1 M1]; [done|]. destruct (grid_div t r' c') as [D2 M2]; [done|].
    rewrite E in D1, M1. apply (Hinj x y (r, c) Hx). rewrite Hy. congruence.
  - intros y. rewrite Vg. split.
    + intros [Hy Hne]. pose proof (N.div_mod y t ltac:(lia)) as Hdm. pose proof (N.mod_lt y t ltac:(lia)) as Hm.
      assert (y / t < s)%N as Hd by (apply N.div_lt_upper_bound; lia).
      destruct (proj2 (Hinv (y / t) (y mod t))%N) as (x & Hx); [split; [by apply Vp|by apply Vq]|].
      exists x. rewrite Hx. split; [|lia]. apply Vh. exists (y / t)%N, (y mod t)%N. split; [done|].
      generalize dependent (y / t)%N. intros d _ Hd _. generalize dependent (y mod t)%N. intros m Hm.
      destruct (decide (s = 1%N)) as [->|Hs1].
      * right. destruct (decide (m = 0%N)) as [->|]; [exists 1%N|exists (m - 1)%N]; apply Aq; lia.
      * left. destruct (decide (d = 0%N)) as [->|]; [exists 1%N|exists (d - 1)%N]; apply Ap; lia.
    + intros (x & (r & c & Hx & Hiso)%Vh & ->). rewrite Hx. destruct (Hrc x r c Hx). split; [nia|].
      intros E. assert (s = 1 ∧ t = 1)%N as [-> ->] by nia. destruct Hiso as [[w Hw%Ap]|[w Hw%Aq]]; lia.
  - intros x y (r & c & Hx & _)%Vh (r' & c' & Hy & _)%Vh. rewrite Hx, Hy. destruct (Hrc x r c Hx) as [Hr Hc], (Hrc y r' c' Hy) as [Hr' Hc']. apply eq_true_iff_eq.
    rewrite Ah, Ag.
    assert (∀ a b a' b', (a < s → b < t → a' < s → b' < t → a * t + b = a' * t + b' → a = a' ∧ b = b')%N) as Huniq.
    { intros a b a' b' _ Hb _ Hb' E. destruct (grid_div t a b Hb) as [D1 M1], (grid_div t a' b' Hb') as [D2 M2]. rewrite E in D1, M1. split; congruence. }
    assert (∀ a b a' b', (a < s → b < t → a' < s → b' < t →
      grid_adj s t (a * t + b) (a' * t + b') ↔ (a' = a ∧ b' = b + 1) ∨ (b' = b ∧ a' = a + 1))%N) as Hga.
    { intros a b a' b' Ha Hb Ha' Hb'. split.
      - intros (a0 & b0 & Ha0 & Hb0 & E1 & [[E2 Hlt]|[E2 Hlt]]).
        + apply Huniq in E1 as [-> ->]; [|done..]. apply Huniq in E2 as [-> ->]; [|done..]. by left.
        + apply Huniq in E1 as [-> ->]; [|done..]. apply Huniq in E2 as [-> ->]; [|done..]. by right.
      - intros [[-> ->]|[-> ->]]; exists a, b; (split_and!; [done..|]); [by left|by right]. }
    rewrite !Hga by done. split.
    + intros (u & v & u' & v' & E1 & E2 & Hd). rewrite Hx in E1. rewrite Hy in E2. injection E1 as <- <-. injection E2 as <- <-.
      destruct Hd as [[-> Hd%Aq]|[-> Hd%Ap]]; lia.
    + intros Hd. exists r, c, r', c'. split_and!; [done..|]. rewrite Ap, Aq. lia.
Qed.
End compose.

(** ** Cases meeting the hypotheses: a triangle with a pendant edge, and a path *)
Local Existing Instance std_iter.
Definition C93_exG : editgraph := ex_edit [(0, 1); (1, 2); (2, 0); (2, 3)]%N.
Definition C93_exP : editgraph := ex_edit [(0, 1); (1, 2)]%N.
Lemma C93_ex_reachable : eg_reachable C93_exG.
Proof. unfold C93_exG, ex_edit. destruct (C01_editgraph_refines (ex_ops_of [(0, 1); (1, 2); (2, 0); (2, 3)]%N)) as (h & Hh & _). rewrite Hh. by eexists _, _. Qed.
Lemma C93_ex_wf : graph_wf (eg_graph C93_exG) ∧ graph_wf (eg_graph C93_exP).
Proof. split; apply ex_edit_spec. Qed.
Lemma C93_ex_vertices : (∀ v, contains (eg_graph C93_exG) v = true → (v < 4)%N) ∧ (∀ v, contains (eg_graph C93_exP) v = true → (v < 3)%N).
Proof.
  split; intros v Hv; [apply (wf_vertices _ (proj1 C93_ex_wf)) in Hv|apply (wf_vertices _ (proj2 C93_ex_wf)) in Hv]; revert v Hv; apply Forall_forall;
    apply (bool_decide_unpack _); vm_compute; exact I.
Qed.
Lemma C93_ex_loopless : loopless (eg_graph C93_exG) ∧ loopless (eg_graph C93_exP).
Proof. split; intros u Hu; apply ex_edit_spec in Hu; set_solver. Qed.
Definition C93_deg (G : graph) : option (nat * nat) := match degeneracy G with Ok (lo, up, _, _) => Some (lo, up) | _ => None end.
Definition C93_bip (G : graph) : option bool := match is_bipartite G with Ok (Bipartition _ _) => Some true | Ok _ => Some false | _ => None end.
Definition C93_comps (G : graph) : option nat := match components G with Ok cs => Some (length cs) | _ => None end.
Example C93_ex_parts :
  C93_deg (eg_graph C93_exG) = Some (2, 2) ∧ C93_deg (eg_graph C93_exP) = Some (1, 1) ∧ C93_bip (eg_graph C93_exG) = Some false ∧
  C93_bip (eg_graph C93_exP) = Some true ∧ C93_comps (eg_graph C93_exG) = Some 1 ∧ C93_comps (eg_graph C93_exP) = Some 1 ∧
  num_vertices (eg_graph C93_exG) = 4 ∧ num_vertices (eg_graph C93_exP) = 3 ∧ num_edges (eg_graph C93_exG) = 4 ∧
  contains (eg_graph C93_exG) 0 = true ∧ contains (eg_graph C93_exP) 0 = true ∧ adjacent (eg_graph C93_exG) 0 1 = true.
Proof. vm_compute. split_and!; reflexivity. Qed.
Example C93_ex_disj_union :
  match eg_disj_union C93_exG (eg_graph C93_exP) with
  | Ok h => C93_deg (eg_graph h) = Some (2, 2) ∧ C93_bip (eg_graph h) = Some false ∧ C93_comps (eg_graph h) = Some 2
  | _ => False end ∧
  (∀ v, contains (eg_graph C93_exP) v = true → (v < 4294967296)%N) ∧
  (∀ u v, eg_contains C93_exG u = true → contains (eg_graph C93_exP) v = true → (u + 1 + v < 4294967296)%N).
Proof.
  split; [vm_compute; split_and!; reflexivity|]. destruct C93_ex_vertices as [H1 H2]. split.
  - intros v Hv%H2. lia.
  - intros u v Hu Hv%H2. assert (u < 4)%N by (by apply H1). lia.
Qed.
Example C93_ex_cartesian :
  match cartesian_product (eg_graph C93_exG) (eg_graph C93_exP) with
  | Ok (h, _) => C93_deg (eg_graph h) = Some (3, 3) ∧ C93_bip (eg_graph h) = Some false ∧ C93_comps (eg_graph h) = Some 1
  | _ => False end.
Proof. vm_compute. split_and!; reflexivity. Qed.
Example C93_ex_subdivide :
  match subdivide (eg_graph C93_exG) 1, subdivide (eg_graph C93_exG) 2 with
  | Ok h1, Ok h2 => C93_deg (eg_graph h1) = Some (2, 2) ∧ C93_bip (eg_graph h1) = Some true ∧ C93_comps (eg_graph h1) = Some 1 ∧ C93_bip (eg_graph h2) = Some false
  | _, _ => False end ∧
  ∀ v, contains (eg_graph C93_exG) v = true → (v + 1 + N.of_nat (num_edges (eg_graph C93_exG)) * 2 < 2 ^ 32)%N.
Proof.
  split; [vm_compute; split_and!; reflexivity|]. intros v Hv%(proj1 C93_ex_vertices).
  assert (num_edges (eg_graph C93_exG) = 4) as -> by (vm_compute; reflexivity). change (2 ^ 32)%N with 4294967296%N. lia.
Qed.
Example C93_ex_contract :
  match eg_contract_into C93_exG 0%N [0; 1; 2]%N with Ok h => C93_comps (eg_graph h) = Some 1 ∧ eg_num_vertices h = 2 | _ => False end ∧
  eg_contains C93_exG 0%N = true ∧ (∀ v, v ∈ [0; 1; 2]%N → eg_contains C93_exG v = true) ∧
  ∃ Y, components (eg_graph C93_exG) = Ok [Y] ∧ ∀ v, v ∈ [0; 1; 2]%N → v ∈ Y.
Proof.
  split; [vm_compute; split_and!; reflexivity|]. split; [vm_compute; reflexivity|].
  split; [apply Forall_forall; repeat constructor|]. eexists. split; [vm_compute; reflexivity|].
  apply Forall_forall. repeat constructor; apply (bool_decide_unpack _); vm_compute; exact I.
Qed.
Example C93_ex_grid :
  match eg_path 3, eg_path 4 with
  | Ok p, Ok q => match cartesian_product (eg_graph p) (eg_graph q), eg_grid 3 4 with
    | Ok (h, _), Ok g => eg_num_vertices h = 12 ∧ eg_num_edges h = 17 ∧ eg_num_vertices g = 12 ∧ eg_num_edges g = 17
    | _, _ => False end
  | _, _ => False end.
Proof. vm_compute. split_and!; reflexivity. Qed.

Print Assumptions C93_disj_union_components.
Print Assumptions C93_disj_union_bipartite.
Print Assumptions C93_disj_union_degeneracy.
Print Assumptions C93_cartesian_bipartite.
Print Assumptions C93_cartesian_connected.
Print Assumptions C93_cartesian_degeneracy.
Print Assumptions C93_contract_components.
Print Assumptions C93_subdivide_bipartite.
Print Assumptions C93_subdivide_components.
Print Assumptions C93_subdivide_degeneracy.
Print Assumptions C93_grid_is_product.
