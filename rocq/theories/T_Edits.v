(** Property theorem C104: how one edit of an EditGraph (editgraph.rs:207-262) changes the answers of the algorithms
    (algorithms/graph.rs:41-223), and how reachability (algorithms/lineargraph.rs:110-206) changes when edges are deleted. *)
From Verif Require Import Base Spec M_Graph M_Iterators M_EditGraph M_Algorithms M_OrdGraph M_Linear S_Graph S_Linear S_Reach
  P_EditGraph P_EditGraph2 P_Graph P_Degeneracy P_Determin2 P_Compose P_Iso P_OrdGraph P_OrdGraph2 P_DegenGraph P_Linear P_Linear2 P_Wdist P_Domset P_ReachRel P_Edits
  T_EditGraph T_Algorithms T_OrdGraph T_Linear Examples.

(** The answers about core numbers on two graphs: those on the first are between those on the second and these plus [k]. *)
Definition cores_within `{HI : HashIter} (G1 G2 : graph) (k : nat) : Prop :=
  ∃ lo1 up1 o1 c1 lo2 up2 o2 c2, degeneracy G1 = Ok (lo1, up1, o1, c1) ∧ degeneracy G2 = Ok (lo2, up2, o2, c2) ∧
    lo2 ≤ lo1 ∧ up2 ≤ up1 ≤ up2 + k ∧ ∀ v b, c2 !! v = Some b → ∃ a, c1 !! v = Some a ∧ b ≤ a ≤ b + k.

Section edits.
Context {Hi : HashIter}.

Lemma cores_near G1 G2 k ex : graph_wf G1 → graph_wf G2 → loopless G1 → near G1 G2 k ex → (∀ a, vtx G2 a → vtx G1 a) →
  (∀ a b, adj G2 a b → adj G1 a b) → cores_within G1 G2 k.
Proof.
  intros H1 H2 Hl Hn Hv Ha. assert (loopless G2) as Hl2 by (intros x Hx; by apply (Hl x), Ha).
  destruct (C23_degeneracy_order G1 H1 Hl) as (lo1 & up1 & o1 & c1 & D1 & _). destruct (C23_degeneracy_order G2 H2 Hl2) as (lo2 & up2 & o2 & c2 & D2 & _).
  destruct (degeneracy_near Hi Hi G1 G2 k ex lo1 up1 o1 c1 lo2 up2 o2 c2 H1 H2 Hl Hn Hv Ha D1 D2) as (A & B & C & D).
  exists lo1, up1, o1, c1, lo2, up2, o2, c2. split_and!; [done..|]. intros v b Hb. destruct (D v b Hb) as (a & ? & ? & ?). by exists a.
Qed.
Lemma lower_of_upper G lo up o c : graph_wf G → loopless G → degeneracy G = Ok (lo, up, o, c) → lo = dgn_lower up.
Proof. intros H Hl D. destruct (degeneracy_inv G H Hl) as (s & Hs & _). rewrite D in Hs. by injection Hs as -> -> _ _. Qed.

(** ** Adding a vertex *)
Theorem C104_add_vertex (g : editgraph) (v : N) : eg_reachable g → eg_contains g v = false →
  let h := (eg_add_vertex g v).1 in
  (∃ cs1 cs2, components (eg_graph g) = Ok cs1 ∧ components (eg_graph h) = Ok cs2 ∧ cs2 ≡ₚ {[v]} :: cs1) ∧
  ((∃ L R, is_bipartite (eg_graph h) = Ok (Bipartition L R)) ↔ ∃ L R, is_bipartite (eg_graph g) = Ok (Bipartition L R)) ∧
  ((∀ u, eg_adjacent g u u = false) → ∃ lo up o1 c1 o2 c2, degeneracy (eg_graph g) = Ok (lo, up, o1, c1) ∧
     degeneracy (eg_graph h) = Ok (lo, up, o2, c2) ∧ c2 = <[v := 0]> c1).
Proof.
  intros Rg Hv h. pose proof (proj1 (eg_reachable_wf g) Rg) as Hgw. destruct (eg_add_vertex_spec g v Hgw) as (Hhw & _ & HV & HA & _). fold h in Hhw, HV, HA.
  pose proof (eg_graph_wf g Hgw) as Hg. pose proof (eg_graph_wf h Hhw) as Hh.
  assert (∀ x, vtx (eg_graph h) x ↔ vtx (eg_graph g) x ∨ x = v) as HV' by exact HV.
  assert (∀ x y, adj (eg_graph h) x y ↔ adj (eg_graph g) x y) as HA' by exact HA. clear HV HA.
  assert (¬ vtx (eg_graph g) v) as Hnv by (unfold vtx; cbn; congruence).
  assert (∀ a b, rtc (adj (eg_graph h)) a b ↔ rtc (adj (eg_graph g)) a b) as HR.
  { intros a b. split; apply rtc_subrel; intros x y; apply HA'. }
  assert (∀ b, rtc (adj (eg_graph g)) v b → b = v) as Hiso.
  { intros b Hb. inversion Hb as [|? w ? Hw]; [done|]. destruct Hnv. by apply (wf_adj_vtx _ Hg v w). }
  split_and!.
  - destruct (C22_components (eg_graph g) Hg) as (cs1 & E1 & Hnd1 & Hne1 & Hdj1 & Hv1 & Hr1).
    destruct (components_value (eg_graph h) ({[v]} :: cs1) Hh) as (cs2 & E2 & Hp).
    + apply NoDup_cons. split; [|done]. intros Hin. apply Hnv, Hv1. exists {[v]}. split; [done|by apply elem_of_singleton].
    + intros X [->|HX]%elem_of_cons; [|by apply Hne1]. intros He. assert (v ∈ ({[v]} : gset N)) as Hin by (by apply elem_of_singleton). rewrite He in Hin. by apply elem_of_empty in Hin.
    + intros X a b [->|HX]%elem_of_cons Ha; rewrite HR.
      * apply elem_of_singleton in Ha as ->. rewrite elem_of_singleton. split; [by intros ->|apply Hiso].
      * assert (vtx (eg_graph g) a) as Hav by (apply Hv1; eauto). rewrite <- (Hr1 a b Hav). split; [by eauto|].
        intros (Z & HZ & Ha' & Hb'). destruct (decide (Z = X)) as [->|Hn]; [done|]. by destruct (Hdj1 Z X HZ HX Hn a Ha' Ha).
    + intros x. rewrite HV', Hv1. split.
      * intros [(X & HX & Hx)| ->]; [exists X; split; [by right|done]|]. exists {[v]}. split; [left|by apply elem_of_singleton].
      * intros (X & [->|HX]%elem_of_cons & Hx); [right; by apply elem_of_singleton in Hx|left; eauto].
    + by exists cs1, cs2.
  - rewrite (C25_iff_two_colourable _ Hh), (C25_iff_two_colourable _ Hg). by setoid_rewrite HA'.
  - intros Hl. assert (loopless (eg_graph g)) as Hlg by (intros x Hx; unfold adj in Hx; cbn in Hx; by rewrite Hl in Hx).
    assert (loopless (eg_graph h)) as Hlh by (intros x Hx%HA'; by apply (Hlg x)).
    destruct (cores_near (eg_graph h) (eg_graph g) 0 (λ _, []) Hh Hg Hlh) as (lo2 & up2 & o2 & c2 & lo1 & up1 & o1 & c1 & D2 & D1 & _ & Hup & Hc).
    + split.
      * intros a b [Ha|Ha]%HV' [Hb|Hb]%HV' Hna Hnb; [done..|congruence].
      * intros a _. split; [done|]. intros b Hb. left. by apply HA'.
    + intros a Ha. apply HV'. by left.
    + intros a b Hab. by apply HA'.
    + assert (up2 = up1) as -> by lia. pose proof (lower_of_upper _ _ _ _ _ Hg Hlg D1) as ->. pose proof (lower_of_upper _ _ _ _ _ Hh Hlh D2) as ->.
      exists (dgn_lower up1), up1, o1, c1, o2, c2. split_and!; [done..|].
      destruct (C23_degeneracy_order (eg_graph g) Hg Hlg) as (? & ? & ? & ? & D1' & _ & _ & Hdom1). rewrite D1 in D1'. injection D1' as <- <- <- <-.
      destruct (C23_degeneracy_order (eg_graph h) Hh Hlh) as (? & ? & ? & ? & D2' & _ & _ & Hdom2). rewrite D2 in D2'. injection D2' as <- <- <- <-.
      apply map_eq. intros w. destruct (decide (w = v)) as [->|Hw].
      * rewrite lookup_insert. destruct (proj2 (Hdom2 v)) as [a Ha]; [apply HV'; by right|]. rewrite Ha. f_equal.
        destruct (C24_core_attained (eg_graph h) _ _ _ _ v a Hh Hlh D2 Ha) as (H & HvH & Hm). destruct (Hm v HvH) as (_ & l & _ & Hlen & Hl2).
        destruct l as [|x l]; [cbn in Hlen; lia|]. destruct (Hl2 x) as [_ Hx]; [left|]. apply HA' in Hx. destruct Hnv. by apply (wf_adj_vtx _ Hg v x).
      * rewrite lookup_insert_ne by done. destruct (c1 !! w) as [b|] eqn:Eb.
        { destruct (Hc w b Eb) as (a & Ha & ?). rewrite Ha. f_equal. lia. }
        apply eq_None_not_Some. intros [a Ha]. assert (vtx (eg_graph h) w) as [Hww|Hww]%HV' by (apply Hdom2; eauto); [|done].
        apply Hdom1 in Hww as [? ?]. congruence.
Qed.

(** ** Adding an edge between existing vertices *)
Lemma plus_of_add (g : editgraph) (u v : N) : eg_reachable g → eg_contains g u = true → eg_contains g v = true →
  ∃ h b, eg_add_edge g u v = Ok (h, b) ∧ eg_reachable h ∧ plus_edge (eg_graph g) (eg_graph h) u v.
Proof.
  intros Rg Hu Hv. destruct (eg_add_edge_spec g u v (proj1 (eg_reachable_wf g) Rg)) as (h & Eh & Hhw & HV & HA & _). exists h, (negb (eg_adjacent g u v)).
  split; [done|]. split; [by apply eg_reachable_wf|]. split; [done|]. split; [done|]. split; [|exact HA].
  intros x. change (ev h x ↔ ev g x). rewrite HV. split; [|by left]. by intros [?|[->| ->]].
Qed.

Theorem C104_add_edge_components (g : editgraph) (u v : N) : eg_reachable g → eg_contains g u = true → eg_contains g v = true →
  ∃ h b cs1 cs2 X Y, eg_add_edge g u v = Ok (h, b) ∧ components (eg_graph g) = Ok cs1 ∧ components (eg_graph h) = Ok cs2 ∧
    X ∈ cs1 ∧ Y ∈ cs1 ∧ u ∈ X ∧ v ∈ Y ∧
    (X = Y → cs2 ≡ₚ cs1) ∧ (X ≠ Y → ∃ rest, cs1 ≡ₚ X :: Y :: rest ∧ cs2 ≡ₚ (X ∪ Y) :: rest).
Proof.
  intros Rg Hu Hv. destruct (plus_of_add g u v Rg Hu Hv) as (h & b & Eh & Rh & Hp).
  destruct (plus_edge_components _ _ u v (C10_reachable_wf g Rg) (C10_reachable_wf h Rh) Hp) as (cs1 & cs2 & X & Y & H). by exists h, b, cs1, cs2, X, Y.
Qed.
(** The graph stays bipartite unless the two ends are in one component and on one side. *)
Theorem C104_add_edge_bipartite (g : editgraph) (u v : N) L R : eg_reachable g → eg_contains g u = true → eg_contains g v = true →
  is_bipartite (eg_graph g) = Ok (Bipartition L R) →
  ∃ h b cs, eg_add_edge g u v = Ok (h, b) ∧ components (eg_graph g) = Ok cs ∧
    ((∃ L' R', is_bipartite (eg_graph h) = Ok (Bipartition L' R')) ↔ ¬ ((∃ X, X ∈ cs ∧ u ∈ X ∧ v ∈ X) ∧ (u ∈ L ↔ v ∈ L))).
Proof.
  intros Rg Hu Hv Hb. destruct (plus_of_add g u v Rg Hu Hv) as (h & b & Eh & Rh & Hp).
  destruct (C22_components (eg_graph g) (C10_reachable_wf g Rg)) as (cs & Ecs & _ & _ & _ & _ & Hr). exists h, b, cs. split_and!; [done..|].
  rewrite (Hr u v Hu). exact (plus_edge_bipartite _ _ u v L R (C10_reachable_wf g Rg) (C10_reachable_wf h Rh) Hp Hb).
Qed.
Lemma plus_cores G1 G2 u v : graph_wf G1 → graph_wf G2 → loopless G1 → u ≠ v → plus_edge G1 G2 u v → cores_within G2 G1 1.
Proof.
  intros H1 H2 Hl Huv Hp. pose proof Hp as (_ & _ & HV & HA). eapply cores_near; [done|done| |by apply plus_edge_near| |].
  - intros x [?|[[-> ?]|[-> ?]]]%HA; [by apply (Hl x)|done|congruence].
  - intros a Ha. by apply HV.
  - intros a b Hab. apply HA. by left.
Qed.
(** No bound and no core number drops, and none grows by more than one. *)
Theorem C104_add_edge_degeneracy (g : editgraph) (u v : N) : eg_reachable g → eg_contains g u = true → eg_contains g v = true →
  (∀ x, eg_adjacent g x x = false) → u ≠ v →
  ∃ h b, eg_add_edge g u v = Ok (h, b) ∧ cores_within (eg_graph h) (eg_graph g) 1.
Proof.
  intros Rg Hu Hv Hl Huv. destruct (plus_of_add g u v Rg Hu Hv) as (h & b & Eh & Rh & Hp). exists h, b. split; [done|].
  eapply plus_cores; [by apply C10_reachable_wf|by apply C10_reachable_wf| |exact Huv|exact Hp].
  intros x Hx. unfold adj in Hx. cbn in Hx. by rewrite Hl in Hx.
Qed.

(** ** Removing an edge *)
Lemma plus_of_remove (g : editgraph) (u v : N) : eg_reachable g → eg_adjacent g u v = true →
  ∃ h, eg_remove_edge g u v = Ok (h, true) ∧ eg_reachable h ∧ plus_edge (eg_graph h) (eg_graph g) u v.
Proof.
  intros Rg Huv. destruct (eg_remove_edge_spec g u v (proj1 (eg_reachable_wf g) Rg)) as (h & Eh & Hhw & HV & HA). rewrite Huv in Eh. exists h.
  pose proof (C10_reachable_wf g Rg) as Hg. assert (adj (eg_graph g) v u) as Hvu by (by apply (wf_adj_sym _ Hg)).
  split; [done|]. split; [by apply eg_reachable_wf|]. split_and!.
  - apply (HV u). by apply (wf_adj_vtx _ Hg u v).
  - apply (HV v). by apply (wf_adj_vtx _ Hg v u).
  - intros x. symmetry. apply (HV x).
  - intros x y. change (ea g x y ↔ ea h x y ∨ (x = u ∧ y = v) ∨ (x = v ∧ y = u)). rewrite HA. split.
    + intros Hxy. destruct (decide ((x = u ∧ y = v) ∨ (x = v ∧ y = u))) as [Hd|Hd]; [by right|left; by split].
    + intros [[? _]|[[-> ->]|[-> ->]]]; done.
Qed.
(** Read backwards: at most the component of the edge falls apart, into the parts of the two ends. *)
Theorem C104_remove_edge_components (g : editgraph) (u v : N) : eg_reachable g → eg_adjacent g u v = true →
  ∃ h cs1 cs2 X Y, eg_remove_edge g u v = Ok (h, true) ∧ components (eg_graph h) = Ok cs1 ∧ components (eg_graph g) = Ok cs2 ∧
    X ∈ cs1 ∧ Y ∈ cs1 ∧ u ∈ X ∧ v ∈ Y ∧
    (X = Y → cs2 ≡ₚ cs1) ∧ (X ≠ Y → ∃ rest, cs1 ≡ₚ X :: Y :: rest ∧ cs2 ≡ₚ (X ∪ Y) :: rest).
Proof.
  intros Rg Huv. destruct (plus_of_remove g u v Rg Huv) as (h & Eh & Rh & Hp).
  destruct (plus_edge_components _ _ u v (C10_reachable_wf h Rh) (C10_reachable_wf g Rg) Hp) as (cs1 & cs2 & X & Y & H). by exists h, cs1, cs2, X, Y.
Qed.
Theorem C104_remove_edge_degeneracy (g : editgraph) (u v : N) : eg_reachable g → eg_adjacent g u v = true → (∀ x, eg_adjacent g x x = false) →
  ∃ h, eg_remove_edge g u v = Ok (h, true) ∧ cores_within (eg_graph g) (eg_graph h) 1.
Proof.
  intros Rg Huv Hl. destruct (plus_of_remove g u v Rg Huv) as (h & Eh & Rh & Hp). exists h. split; [done|].
  eapply plus_cores; [by apply C10_reachable_wf|by apply C10_reachable_wf| | |exact Hp].
  - intros x Hx. assert (eg_adjacent g x x = true) by (apply Hp; by left). congruence.
  - intros ->. congruence.
Qed.

(** ** Removing a vertex *)
Theorem C104_remove_vertex_degeneracy (g : editgraph) (v : N) : eg_reachable g → (∀ x, eg_adjacent g x x = false) →
  ∃ h b, eg_remove_vertex g v = Ok (h, b) ∧ cores_within (eg_graph g) (eg_graph h) 1.
Proof.
  intros Rg Hl. destruct (eg_remove_vertex_spec g v (proj1 (eg_reachable_wf g) Rg)) as (h & Eh & Hhw & HV & HA). exists h, (eg_contains g v). split; [done|].
  assert (∀ x, vtx (eg_graph h) x ↔ vtx (eg_graph g) x ∧ x ≠ v) as HV' by exact HV.
  assert (∀ x y, adj (eg_graph h) x y ↔ adj (eg_graph g) x y ∧ x ≠ v ∧ y ≠ v) as HA' by exact HA.
  apply (cores_near _ _ 1 (λ _, [v])); [by apply C10_reachable_wf|by apply eg_graph_wf| | | |].
  - intros x Hx. unfold adj in Hx. cbn in Hx. by rewrite Hl in Hx.
  - split.
    + intros a b Ha Hb Hna Hnb. rewrite HV' in Hna, Hnb. destruct (decide (a = v)) as [->|?]; [|tauto]. destruct (decide (b = v)) as [->|?]; [done|tauto].
    + intros a Ha. split; [done|]. intros b Hab. rewrite HA'. apply HV' in Ha. destruct (decide (b = v)) as [->|?]; [right; left|left; tauto].
  - intros a [? _]%HV'. done.
  - intros a b [? _]%HA'. done.
Qed.
(** The other components stay; the one of [v] falls into at most as many parts as [v] has neighbours. *)
Theorem C104_remove_vertex_components (g : editgraph) (v : N) : eg_reachable g → eg_contains g v = true →
  ∃ h cs1 cs2 X, eg_remove_vertex g v = Ok (h, true) ∧ components (eg_graph g) = Ok cs1 ∧ components (eg_graph h) = Ok cs2 ∧
    X ∈ cs1 ∧ v ∈ X ∧ (∀ Y, Y ∈ cs1 → Y ≠ X → Y ∈ cs2) ∧
    (∀ Y, Y ∈ cs2 → Y ∈ cs1 ∨ (Y ⊆ X ∖ {[v]} ∧ ∃ w, w ∈ Y ∧ eg_adjacent g v w = true)) ∧
    (eg_adjacent g v v = false → length cs2 + 1 ≤ length cs1 + eg_degree g v).
Proof.
  intros Rg Hv. destruct (eg_remove_vertex_spec g v (proj1 (eg_reachable_wf g) Rg)) as (h & Eh & Hhw & HV & HA). rewrite Hv in Eh.
  pose proof (C10_reachable_wf g Rg) as Hg. pose proof (eg_graph_wf h Hhw) as Hh.
  assert (∀ x, vtx (eg_graph h) x ↔ vtx (eg_graph g) x ∧ x ≠ v) as HV' by exact HV.
  assert (∀ x y, adj (eg_graph h) x y ↔ adj (eg_graph g) x y ∧ x ≠ v ∧ y ≠ v) as HA' by exact HA. clear HV HA.
  destruct (C22_components (eg_graph g) Hg) as (cs1 & E1 & Hnd1 & Hne1 & Hdj1 & Hv1 & Hr1).
  destruct (C22_components (eg_graph h) Hh) as (cs2 & E2 & Hnd2 & Hne2 & Hdj2 & Hv2 & Hr2).
  destruct (proj1 (Hv1 v) Hv) as (X & HX & HvX).
  assert (∀ Z a b, Z ∈ cs1 → a ∈ Z → b ∈ Z ↔ rtc (adj (eg_graph g)) a b) as Hcl1.
  { intros Z a b HZ Ha. assert (vtx (eg_graph g) a) as Hav by (apply Hv1; eauto). rewrite <- (Hr1 a b Hav). split; [by eauto|].
    intros (Z' & HZ' & Ha' & Hb'). destruct (decide (Z' = Z)) as [->|Hn]; [done|]. by destruct (Hdj1 Z' Z HZ' HZ Hn a Ha' Ha). }
  assert (∀ Z a b, Z ∈ cs2 → a ∈ Z → b ∈ Z ↔ rtc (adj (eg_graph h)) a b) as Hcl2.
  { intros Z a b HZ Ha. assert (vtx (eg_graph h) a) as Hav by (apply Hv2; eauto). rewrite <- (Hr2 a b Hav). split; [by eauto|].
    intros (Z' & HZ' & Ha' & Hb'). destruct (decide (Z' = Z)) as [->|Hn]; [done|]. by destruct (Hdj2 Z' Z HZ' HZ Hn a Ha' Ha). }
  assert (∀ a b, rtc (adj (eg_graph h)) a b → rtc (adj (eg_graph g)) a b) as Hdn by (intros a b; apply rtc_subrel; intros ? ? [? _]%HA'; done).
  (* a walk either avoids [v] or reaches a neighbour of [v] first *)
  assert (∀ a b, rtc (adj (eg_graph g)) a b → a ≠ v → rtc (adj (eg_graph h)) a b ∨ ∃ w, rtc (adj (eg_graph h)) a w ∧ eg_adjacent g v w = true) as Hup.
  { intros a b Hab. induction Hab as [a|a w b Haw _ IH]; intros Ha; [by left|]. destruct (decide (w = v)) as [->|Hw].
    - right. exists a. split; [done|]. by apply (wf_adj_sym _ Hg).
    - assert (adj (eg_graph h) a w) as Haw' by (by apply HA'). destruct (IH Hw) as [IH'|(y & Hy & Hvy)]; [left; by eapply rtc_l|].
      right. exists y. split; [by eapply rtc_l|done]. }
  assert (∀ Y, Y ∈ cs1 → Y ≠ X → Y ∈ cs2) as Hkeep.
  { intros Y HY HYX. destruct (set_choose_L Y (Hne1 Y HY)) as (a & Ha). assert (v ∉ Y) as HvY by (intros Hin; by destruct (Hdj1 Y X HY HX HYX v Hin HvX)).
    assert (a ≠ v) as Hav by (by intros ->). destruct (proj1 (Hv2 a)) as (Z & HZ & HaZ); [apply HV'; split; [apply Hv1; eauto|done]|].
    enough (Y = Z) as -> by done. apply set_eq. intros b. rewrite (Hcl1 Y a b HY Ha), (Hcl2 Z a b HZ HaZ). split; [|apply Hdn].
    intros [?|(w & Hw & Hvw)]%Hup; [done| |done]. destruct HvY. apply (Hcl1 Y a v HY Ha). eapply rtc_r; [by apply Hdn|]. by apply (wf_adj_sym _ Hg). }
  assert (∀ Y, Y ∈ cs2 → Y ∈ cs1 ∨ (Y ⊆ X ∖ {[v]} ∧ ∃ w, w ∈ Y ∧ eg_adjacent g v w = true)) as Hparts.
  { intros Y HY. destruct (set_choose_L Y (Hne2 Y HY)) as (a & Ha). assert (vtx (eg_graph h) a) as [Hag Hav]%HV' by (apply Hv2; eauto).
    destruct (proj1 (Hv1 a) Hag) as (Z & HZ & HaZ). destruct (decide (Z = X)) as [->|HZX].
    - right. split.
      + intros b Hb. pose proof (proj1 (Hcl2 Y a b HY Ha) Hb) as Hab. apply elem_of_difference. split; [by apply (Hcl1 X a b HX HaZ), Hdn|].
        rewrite elem_of_singleton. intros ->. assert (vtx (eg_graph h) v) as [_ ?]%HV' by (apply Hv2; eauto). done.
      + pose proof (proj1 (Hcl1 X a v HX HaZ) HvX) as Hst. destruct (Hup a v Hst Hav) as [Hbad|(w & Hw & Hvw)].
        * exfalso. assert (v ∈ Y) as HvY by (by apply (Hcl2 Y a v HY Ha)). assert (vtx (eg_graph h) v) as [_ ?]%HV' by (apply Hv2; eauto). done.
        * exists w. split; [by apply (Hcl2 Y a w HY Ha)|done].
    - left. enough (Y = Z) as -> by done. pose proof (Hkeep Z HZ HZX) as HZ2. destruct (decide (Y = Z)) as [?|Hn]; [done|]. by destruct (Hdj2 Y Z HY HZ2 Hn a Ha HaZ). }
  exists h, cs1, cs2, X. split_and!; [done..|]. intros Hloop.
  pose proof (nbrs_spec (eg_graph g) v Hg Hv) as (_ & _ & Hn & Hdeg). assert (¬ adj (eg_graph g) v v) as Hnl by (unfold adj; cbn; congruence). specialize (Hdeg Hnl). change (degree (eg_graph g) v) with (eg_degree g v) in Hdeg.
  apply elem_of_Permutation in HX as (rest & Hrest). rewrite Hrest in Hnd1. apply NoDup_cons in Hnd1 as [HXr _].
  set (of := λ w, default ∅ (head (filter (λ Y : gset N, w ∈ Y) cs2))).
  assert (∀ Y w, Y ∈ cs2 → w ∈ Y → of w = Y) as Hof.
  { intros Y w HY Hw. unfold of. destruct (filter (λ Y : gset N, w ∈ Y) cs2) as [|Z l] eqn:E.
    - assert (Y ∈ filter (λ Y : gset N, w ∈ Y) cs2) as Hin by (by apply elem_of_list_filter). rewrite E in Hin. by apply elem_of_nil in Hin.
    - cbn. assert (Z ∈ filter (λ Y : gset N, w ∈ Y) cs2) as [HwZ HZ]%elem_of_list_filter by (rewrite E; left).
      destruct (decide (Z = Y)) as [?|Hne]; [done|]. by destruct (Hdj2 Z Y HZ HY Hne w HwZ Hw). }
  assert (length cs2 ≤ length (rest ++ (of <$> nbrs (eg_graph g) v))) as Hlen.
  { apply submseteq_length, NoDup_submseteq; [done|]. intros Y HY. apply elem_of_app. destruct (Hparts Y HY) as [HY1|(_ & w & Hw & Hvw)].
    - left. rewrite Hrest in HY1. apply elem_of_cons in HY1 as [->|?]; [|done]. exfalso.
      assert (vtx (eg_graph h) v) as [_ ?]%HV' by (apply Hv2; eauto). done.
    - right. apply elem_of_list_fmap. exists w. split; [symmetry; by apply Hof|]. by apply Hn. }
  rewrite app_length, fmap_length in Hlen. rewrite (Permutation_length Hrest). cbn [length]. lia.
Qed.

(** ** Fewer edges, less reachability *)
(** If [L1] is a subgraph of [L2] in the same order, everything reachable in [L1] is reachable in [L2] at no greater distance. *)
Theorem C104_reach (L1 L2 : lgraph) (u : N) (r : nat) : lgraph_wf L1 → lgraph_wf L2 →
  (∀ x, contains L1 x = true → contains L2 x = true) → (∀ x y, adjacent L1 x y = true → adjacent L2 x y = true) →
  (∀ x y, before (vertices L1) x y → before (vertices L2) x y) →
  contains L1 u = true → 1 ≤ r → (N.of_nat r + 1 < u32_mod)%N →
  ∃ s1 s2 W1 W2 w1 w2, sreach_set L1 u r = Ok s1 ∧ sreach_set L2 u r = Ok s2 ∧
    wreach_sets L1 r = Ok W1 ∧ wreach_sets L2 r = Ok W2 ∧ W1 !! u = Some w1 ∧ W2 !! u = Some w2 ∧
    (∀ x k, s1 !! x = Some k → ∃ j, s2 !! x = Some j ∧ j ≤ k) ∧ (∀ x k, w1 !! x = Some k → ∃ j, w2 !! x = Some j ∧ j ≤ k) ∧
    size s1 ≤ size s2 ∧ size w1 ≤ size w2.
Proof.
  intros HL1 HL2 HV HA HB Hu Hr Hr2.
  destruct (sreach_set_spec L1 HL1 u r Hu Hr) as (s1 & Hs1 & Hss1); [lia|]. destruct (sreach_set_spec L2 HL2 u r (HV u Hu) Hr) as (s2 & Hs2 & Hss2); [lia|].
  destruct (wreach_sets_spec L1 HL1 r Hr2) as (W1 & HW1 & HWm1). destruct (wm_get L1 r W1 HWm1 u Hu) as (w1 & Hw1 & Hws1).
  destruct (wreach_sets_spec L2 HL2 r Hr2) as (W2 & HW2 & HWm2). destruct (wm_get L2 r W2 HWm2 u (HV u Hu)) as (w2 & Hw2 & Hws2).
  assert (∀ p, walk (adj L1) p → walk (adj L2) p) as Hwalk.
  { induction p as [|a p IH]; [done|]. destruct p as [|b p]; [done|]. intros [Hab Hp]. split; [by apply HA|by apply IH]. }
  assert (∀ x y, not_left L1 x y → not_left L2 x y) as Hnl by (intros x y [?|?]; [by left|right; by apply HB]).
  assert (∀ x k, s1 !! x = Some k → ∃ j, s2 !! x = Some j ∧ j ≤ k) as HS.
  { intros x k Hx. apply Hss1 in Hx as (Hb & Hk & (q & Hl & Hh & Hw & Hq) & _).
    apply (sreach_reach L2 HL2 u x k r s2 (HV u Hu) Hss2); [by apply HB|lia|]. exists q. split_and!; [done|done|by apply Hwalk|]. intros y Hy. by apply Hnl, Hq. }
  assert (∀ x k, w1 !! x = Some k → ∃ j, w2 !! x = Some j ∧ j ≤ k) as HW.
  { intros x k Hx. apply Hws1 in Hx as (Hb & Hk & (p & Hl & Hh & Hla & Hw & Hp) & _).
    destruct (wm_reach L2 HL2 r W2 HWm2 u x k (HV u Hu)) as (w' & j & Hw' & Hj & Hle).
    - intros ->. by apply (ord_irrefl' _ _ (vs_nodup L1 HL1)) in Hb.
    - lia.
    - exists p. split_and!; [done|done|done|by apply Hwalk|]. intros y Hy. by apply Hnl, Hp.
    - exists j. split; [congruence|done]. }
  exists s1, s2, W1, W2, w1, w2. split_and!; [done..| |].
  - rewrite <- !size_dom. apply subseteq_size. intros x [k Hk]%elem_of_dom. destruct (HS x k Hk) as (j & Hj & _). apply elem_of_dom. eauto.
  - rewrite <- !size_dom. apply subseteq_size. intros x [k Hk]%elem_of_dom. destruct (HW x k Hk) as (j & Hj & _). apply elem_of_dom. eauto.
Qed.
End edits.

(** ** Examples: two paths, a triangle with a tail *)
Local Existing Instance std_iter.
Definition ex_C104_g : editgraph := ex_edit [(0, 1); (1, 2); (4, 5); (5, 6)]%N.
Definition ex_C104_sizes (r : res (editgraph * bool)) : res (list nat * bool * nat) :=
  p ← r; let p : editgraph * bool := p in cs ← components (eg_graph p.1); w ← is_bipartite (eg_graph p.1); d ← degeneracy (eg_graph p.1);
  Ok ((λ X : gset N, size X) <$> (cs : list (gset N)), match w with Bipartition _ _ => true | OddCycle _ => false end, (d : nat * nat * list N * gmap N nat).1.1.2).
Example ex_C104_reachable : eg_reachable ex_C104_g ∧ (∀ x, eg_adjacent ex_C104_g x x = false).
Proof.
  split; [destruct (C01_editgraph_refines (ex_ops_of [(0, 1); (1, 2); (4, 5); (5, 6)]%N)) as (h & Hh & _); unfold ex_C104_g, ex_edit; rewrite Hh; by eexists _, _|].
  intros x. apply not_true_is_false. intros Hx. apply (ex_edit_spec [(0, 1); (1, 2); (4, 5); (5, 6)]%N) in Hx. set_solver.
Qed.
(** Joining the paths, closing a path to a triangle (the bound grows), removing and adding vertices. *)
Example ex_C104 : ex_C104_sizes (Ok (ex_C104_g, true)) = Ok ([3; 3], true, 1) ∧
  ex_C104_sizes (eg_add_edge ex_C104_g 2 4) = Ok ([6], true, 1) ∧
  ex_C104_sizes (eg_add_edge ex_C104_g 0 2) = Ok ([3; 3], false, 2) ∧
  ex_C104_sizes (eg_remove_edge ex_C104_g 0 1) = Ok ([3; 1; 2], true, 1) ∧
  ex_C104_sizes (eg_remove_vertex ex_C104_g 1) = Ok ([3; 1; 1], true, 1) ∧
  ex_C104_sizes (Ok (eg_add_vertex ex_C104_g 9)) = Ok ([1; 3; 3], true, 1).
Proof. vm_compute. split_and!; reflexivity. Qed.
(** In the triangle 0 1 2 with the tail 3 the vertex 3 reaches 0 through 2; without the edge 0 2 it takes one step more. *)
Example ex_C104_reach : lgraph_wf (ex_lin [(0, 1); (1, 2); (2, 3)]%N [0; 1; 2; 3]%N) ∧ lgraph_wf (ex_lin [(0, 1); (1, 2); (0, 2); (2, 3)]%N [0; 1; 2; 3]%N) ∧
  (W ← wreach_sets (ex_lin [(0, 1); (1, 2); (2, 3)]%N [0; 1; 2; 3]%N) 3; w ← unwrap (W !! 3%N); Ok (w !! 0%N)) = Ok (Some 3) ∧
  (W ← wreach_sets (ex_lin [(0, 1); (1, 2); (0, 2); (2, 3)]%N [0; 1; 2; 3]%N) 3; w ← unwrap (W !! 3%N); Ok (w !! 0%N)) = Ok (Some 2).
Proof.
  split_and!; [by apply ex_lin_spec; vm_compute|by apply ex_lin_spec; vm_compute|vm_compute; reflexivity|vm_compute; reflexivity].
Qed.

Print Assumptions C104_add_vertex.
Print Assumptions C104_add_edge_components.
Print Assumptions C104_add_edge_bipartite.
Print Assumptions C104_add_edge_degeneracy.
Print Assumptions C104_remove_edge_components.
Print Assumptions C104_remove_edge_degeneracy.
Print Assumptions C104_remove_vertex_degeneracy.
Print Assumptions C104_remove_vertex_components.
Print Assumptions C104_reach.
