(** Property theorem C87: what the algorithms and operations on general graphs compute does not
    depend on the data structure nor on the iteration order of the hash tables, which changes from
    run to run.  [H1] and [H2] are two arbitrary hash orders. *)
From Verif Require Import Base Spec M_Graph M_Iterators M_EditGraph M_Algorithms M_Operations S_Graph
  P_EditGraph P_EditGraph2 P_Graph P_Iterators P_Degeneracy P_Determin2 T_EditGraph T_Algorithms T_Operations Examples.

(** Two graphs present the same vertices and edges. *)
Definition same_graph (G1 G2 : graph) : Prop :=
  (∀ u, contains G1 u = contains G2 u) ∧ ∀ u v, adjacent G1 u v = adjacent G2 u v.
(** Every vertex and every edge of the first graph is one of the second. *)
Definition part_of (G1 G2 : graph) : Prop :=
  (∀ u, contains G1 u = true → contains G2 u = true) ∧ ∀ u v, adjacent G1 u v = true → adjacent G2 u v = true.

(** An EditGraph presents the same graph under any two hash orders. *)
Lemma eg_same_graph (H1 H2 : HashIter) (g : editgraph) : same_graph (@eg_graph H1 g) (@eg_graph H2 g).
Proof. done. Qed.

(** ** C87: degeneracy.  Bounds and core numbers are the same; the orders list the same vertices. *)
Theorem C87_degeneracy (H1 H2 : HashIter) (G1 G2 : graph) : graph_wf G1 → graph_wf G2 → loopless G1 → same_graph G1 G2 →
  ∃ lo up core o1 o2, @degeneracy H1 G1 = Ok (lo, up, o1, core) ∧ @degeneracy H2 G2 = Ok (lo, up, o2, core) ∧ o1 ≡ₚ o2.
Proof.
  intros Hw1 Hw2 Hl1 [Hc Ha]. assert (loopless G2) as Hl2 by (intros u; unfold adj; rewrite <- Ha; apply Hl1).
  destruct (@C23_degeneracy_order H1 G1 Hw1 Hl1) as (lo1 & up1 & o1 & c1 & Hd1 & Hn1 & Ho1 & Hc1).
  destruct (@C23_degeneracy_order H2 G2 Hw2 Hl2) as (lo2 & up2 & o2 & c2 & Hd2 & Hn2 & Ho2 & Hc2).
  destruct (degeneracy_le H1 H2 G1 G2 lo1 up1 o1 c1 lo2 up2 o2 c2 Hw1 Hw2 Hl1 Hl2) as (HA1 & HA2 & HA3); [| |done|done|].
  { intros u. unfold vtx. by rewrite Hc. } { intros u v. unfold adj. by rewrite Ha. }
  destruct (degeneracy_le H2 H1 G2 G1 lo2 up2 o2 c2 lo1 up1 o1 c1 Hw2 Hw1 Hl2 Hl1) as (HB1 & HB2 & HB3); [| |done|done|].
  { intros u. unfold vtx. by rewrite Hc. } { intros u v. unfold adj. by rewrite Ha. }
  exists lo1, up1, c1, o1, o2. split_and!; [done| |].
  - assert (lo2 = lo1) as -> by lia. assert (up2 = up1) as -> by lia. rewrite Hd2. do 2 f_equal. apply map_eq. intros v. destruct (c2 !! v) as [b|] eqn:Eb.
    + destruct (HB3 v b Eb) as (a & Hva & Hle). destruct (HA3 v a Hva) as (b' & Hb' & Hle'). rewrite Hva. f_equal.
      rewrite Eb in Hb'. injection Hb' as <-. lia.
    + destruct (c1 !! v) as [a|] eqn:Ea; [|done]. destruct (HA3 v a Ea) as (b & Hb & _). congruence.
  - apply NoDup_Permutation; [done..|]. intros u. rewrite Ho1, Ho2. unfold vtx. by rewrite Hc.
Qed.

(** Adding vertices and edges never lowers a bound or a core number. *)
Theorem C87_degeneracy_monotone (H1 H2 : HashIter) (G1 G2 : graph) : graph_wf G1 → graph_wf G2 → loopless G2 → part_of G1 G2 →
  ∃ lo1 up1 o1 c1 lo2 up2 o2 c2, @degeneracy H1 G1 = Ok (lo1, up1, o1, c1) ∧ @degeneracy H2 G2 = Ok (lo2, up2, o2, c2) ∧
    lo1 ≤ lo2 ∧ up1 ≤ up2 ∧ ∀ v a, c1 !! v = Some a → ∃ b, c2 !! v = Some b ∧ a ≤ b.
Proof.
  intros Hw1 Hw2 Hl2 [Hc Ha]. assert (loopless G1) as Hl1 by (intros u Hu; by apply (Hl2 u), Ha).
  destruct (@C23_degeneracy_order H1 G1 Hw1 Hl1) as (lo1 & up1 & o1 & c1 & Hd1 & _).
  destruct (@C23_degeneracy_order H2 G2 Hw2 Hl2) as (lo2 & up2 & o2 & c2 & Hd2 & _).
  exists lo1, up1, o1, c1, lo2, up2, o2, c2. split; [done|]. split; [done|]. by eapply (degeneracy_le H1 H2 G1 G2).
Qed.

(** ** C87: components and the verdict of is_bipartite. *)
Theorem C87_components (H1 H2 : HashIter) (G1 G2 : graph) : graph_wf G1 → graph_wf G2 → same_graph G1 G2 →
  ∃ cs1 cs2, @components H1 G1 = Ok cs1 ∧ @components H2 G2 = Ok cs2 ∧ cs1 ≡ₚ cs2.
Proof.
  intros Hw1 Hw2 [Hc Ha].
  destruct (@C22_components H1 G1 Hw1) as (cs1 & Hok1 & Hnd1 & Hne1 & Hdj1 & Hv1 & Hr1).
  destruct (@C22_components H2 G2 Hw2) as (cs2 & Hok2 & Hnd2 & Hne2 & Hdj2 & Hv2 & Hr2).
  exists cs1, cs2. split_and!; [done|done|]. apply NoDup_Permutation; [done..|].
  assert (∀ (G1 G2 : graph) (cs1 cs2 : list (gset N)), (∀ u, contains G1 u = contains G2 u) → (∀ u v, adjacent G1 u v = adjacent G2 u v) →
    (∀ X, X ∈ cs1 → X ≠ ∅) → (∀ X Y, X ∈ cs1 → Y ∈ cs1 → X ≠ Y → X ## Y) → (∀ X Y, X ∈ cs2 → Y ∈ cs2 → X ≠ Y → X ## Y) →
    (∀ v, vtx G1 v ↔ ∃ X, X ∈ cs1 ∧ v ∈ X) → (∀ u v, vtx G1 u → (∃ X, X ∈ cs1 ∧ u ∈ X ∧ v ∈ X) ↔ rtc (adj G1) u v) →
    (∀ v, vtx G2 v ↔ ∃ X, X ∈ cs2 ∧ v ∈ X) → (∀ u v, vtx G2 u → (∃ X, X ∈ cs2 ∧ u ∈ X ∧ v ∈ X) ↔ rtc (adj G2) u v) →
    ∀ X, X ∈ cs1 → X ∈ cs2) as Hgen.
  { clear. intros G1 G2 cs1 cs2 Hc Ha Hne1 Hdj1 Hdj2 Hv1 Hr1 Hv2 Hr2 X HX. destruct (set_choose_L X (Hne1 X HX)) as (u & Hu).
    assert (vtx G1 u) as Hu1 by (apply Hv1; eauto). assert (vtx G2 u) as Hu2 by (unfold vtx in *; by rewrite <- Hc).
    pose proof (proj1 (Hv2 u) Hu2) as (Y & HY & HuY). assert (X = Y) as ->; [|done]. apply set_eq. intros v.
    assert (rtc (adj G1) u v ↔ rtc (adj G2) u v) as Hrt.
    { split; apply rtc_subrel; intros a b; unfold adj; by rewrite Ha. }
    rewrite <- (Hr1 u v Hu1), <- (Hr2 u v Hu2) in Hrt. split; intros Hv.
    - destruct (proj1 Hrt) as (Z & HZ & HuZ & HvZ); [eauto|].
      destruct (decide (Z = Y)) as [->|Hn]; [done|]. destruct (Hdj2 Z Y HZ HY Hn u HuZ HuY).
    - destruct (proj2 Hrt) as (Z & HZ & HuZ & HvZ); [eauto|].
      destruct (decide (Z = X)) as [->|Hn]; [done|]. destruct (Hdj1 Z X HZ HX Hn u HuZ Hu). }
  intros X. split; [by apply (Hgen G1 G2)|]. by apply (Hgen G2 G1).
Qed.

Theorem C87_bipartite (H1 H2 : HashIter) (G1 G2 : graph) : graph_wf G1 → graph_wf G2 → same_graph G1 G2 →
  (∃ L R L' R', @is_bipartite H1 G1 = Ok (Bipartition L R) ∧ @is_bipartite H2 G2 = Ok (Bipartition L' R')) ∨
  (∃ c c', @is_bipartite H1 G1 = Ok (OddCycle c) ∧ @is_bipartite H2 G2 = Ok (OddCycle c')).
Proof.
  intros Hw1 Hw2 [Hc Ha].
  assert ((∃ L R, @is_bipartite H1 G1 = Ok (Bipartition L R)) ↔ ∃ L R, @is_bipartite H2 G2 = Ok (Bipartition L R)) as Hiff.
  { rewrite (@C25_iff_two_colourable H1 G1 Hw1), (@C25_iff_two_colourable H2 G2 Hw2). unfold adj. by setoid_rewrite Ha. }
  destruct (@C25_is_bipartite_total H1 G1 Hw1) as ([L R|c] & E1), (@C25_is_bipartite_total H2 G2 Hw2) as ([L' R'|c'] & E2).
  - left. eauto 10.
  - destruct (proj1 Hiff) as (? & ? & ?); [eauto|congruence].
  - destruct (proj2 Hiff) as (? & ? & ?); [eauto|congruence].
  - right. eauto.
Qed.

(** ** C87: neighbourhoods and the operations that make a graph on the given vertices. *)
Theorem C87_neighbourhoods (H1 H2 : HashIter) (G1 G2 : graph) (X : list N) : graph_wf G1 → graph_wf G2 → same_graph G1 G2 →
  (∀ v, v ∈ X → contains G1 v = true) →
  @neighbourhood H1 G1 X = @neighbourhood H2 G2 X ∧ closed_neighbourhood G1 X = closed_neighbourhood G2 X ∧
  (∀ r, @r_neighbourhood H1 G1 X r = @r_neighbourhood H2 G2 X r) ∧
  @subgraph H1 G1 X = @subgraph H2 G2 X.
Proof.
  intros Hw1 Hw2 [Hc Ha] HX. assert (∀ v, v ∈ X → contains G2 v = true) as HX2 by (intros v Hv; rewrite <- Hc; auto). split_and!.
  - destruct (@C11_neighbourhood H1 G1 X Hw1 HX) as (A & -> & HA), (@C11_neighbourhood H2 G2 X Hw2 HX2) as (B & -> & HB).
    f_equal. apply set_eq. intros u. rewrite HA, HB. by setoid_rewrite Ha.
  - destruct (C11_closed_neighbourhood G1 X Hw1 HX) as (A & -> & HA), (C11_closed_neighbourhood G2 X Hw2 HX2) as (B & -> & HB).
    f_equal. apply set_eq. intros u. rewrite HA, HB. by setoid_rewrite Ha.
  - intros r. destruct (@C12_r_neighbourhood H1 G1 X r Hw1 HX) as (A & -> & HA), (@C12_r_neighbourhood H2 G2 X r Hw2 HX2) as (B & -> & HB).
    f_equal. apply set_eq. intros u. rewrite HA, HB.
    split; intros (x & n & Hx & Hn & Hs); exists x, n; split_and!; try done.
    + refine (nsteps_congruence id _ n x u _ Hs). intros a b. cbn. by rewrite Ha.
    + refine (nsteps_congruence id _ n x u _ Hs). intros a b. cbn. by rewrite Ha.
  - destruct (@C10_subgraph H1 G1 X Hw1 HX) as (h1 & -> & Hr1 & HV1 & HE1), (@C10_subgraph H2 G2 X Hw2 HX2) as (h2 & -> & Hr2 & HV2 & HE2).
    f_equal. apply eg_wf_ext; [first [by apply (@eg_reachable_wf H1)|by apply (@eg_reachable_wf H2)]..| |].
    + intros x. unfold ev. by rewrite HV1, HV2.
    + intros x y. unfold ea. by rewrite HE1, HE2, Ha.
Qed.

Theorem C87_operations (H1 H2 : HashIter) (G1 G2 K1 K2 : graph) : graph_wf G1 → graph_wf G2 → graph_wf K1 → graph_wf K2 →
  same_graph G1 G2 → same_graph K1 K2 →
  invert G1 = invert G2 ∧ merge_graphs G1 K1 = merge_graphs G2 K2 ∧
  intersect_graphs G1 K1 = intersect_graphs G2 K2 ∧ compare_subgraph G1 K1 = compare_subgraph G2 K2.
Proof.
  intros HG1 HG2 HK1 HK2 [Hc Ha] [Kc Ka]. split_and!.
  - destruct (C27_invert G1 HG1) as (h1 & -> & Hr1 & HV1 & HE1), (C27_invert G2 HG2) as (h2 & -> & Hr2 & HV2 & HE2).
    f_equal. apply eg_wf_ext; [first [by apply (@eg_reachable_wf H1)|by apply (@eg_reachable_wf H2)]..| |].
    + intros x. unfold ev. by rewrite HV1, HV2, Hc.
    + intros x y. unfold ea. by rewrite HE1, HE2, !Hc, Ha.
  - destruct (C28_merge G1 K1 HG1 HK1) as (h1 & -> & Hr1 & HV1 & HE1), (C28_merge G2 K2 HG2 HK2) as (h2 & -> & Hr2 & HV2 & HE2).
    f_equal. apply eg_wf_ext; [first [by apply (@eg_reachable_wf H1)|by apply (@eg_reachable_wf H2)]..| |].
    + intros x. unfold ev. by rewrite HV1, HV2, Hc, Kc.
    + intros x y. unfold ea. by rewrite HE1, HE2, Ha, Ka.
  - destruct (C29_intersect G1 K1 HG1 HK1) as (h1 & -> & Hr1 & HV1 & HE1), (C29_intersect G2 K2 HG2 HK2) as (h2 & -> & Hr2 & HV2 & HE2).
    f_equal. apply eg_wf_ext; [first [by apply (@eg_reachable_wf H1)|by apply (@eg_reachable_wf H2)]..| |].
    + intros x. unfold ev. by rewrite HV1, HV2, Hc, Kc.
    + intros x y. unfold ea. by rewrite HE1, HE2, Ha, Ka.
  - destruct (C33_compare G1 K1 HG1 HK1) as (r1 & -> & A1 & A2 & A3 & A4), (C33_compare G2 K2 HG2 HK2) as (r2 & -> & B1 & B2 & B3 & B4).
    f_equal. assert (part_of G1 K1 ↔ part_of G2 K2) as Hp by (unfold part_of; setoid_rewrite Hc; setoid_rewrite Ha; setoid_rewrite Kc; by setoid_rewrite Ka).
    assert (part_of K1 G1 ↔ part_of K2 G2) as Hq by (unfold part_of; setoid_rewrite Hc; setoid_rewrite Ha; setoid_rewrite Kc; by setoid_rewrite Ka).
    fold (part_of G1 K1) (part_of K1 G1) in A1, A2, A3, A4. fold (part_of G2 K2) (part_of K2 G2) in B1, B2, B3, B4.
    generalize dependent (part_of G1 K1). generalize dependent (part_of K1 G1). generalize dependent (part_of G2 K2). generalize dependent (part_of K2 G2).
    clear. intros. destruct r1, r2; try done; exfalso; naive_solver.
Qed.

(** ** C87: histories and bulk changes of an EditGraph. *)
Lemma reachable_same (H1 H2 : HashIter) (g h : editgraph) : @eg_reachable H1 g → @eg_reachable H2 h →
  (∀ x, eg_contains g x = true ↔ eg_contains h x = true) → (∀ x y, eg_adjacent g x y = true ↔ eg_adjacent h x y = true) → g = h.
Proof. intros Hg%(@eg_reachable_wf H1) Hh%(@eg_reachable_wf H2) HV HE. by apply eg_wf_ext. Qed.
Lemma reachable_any (H1 H2 : HashIter) (g : editgraph) : @eg_reachable H1 g → @eg_reachable H2 g.
Proof. intros Hg%(@eg_reachable_wf H1). by apply (@eg_reachable_wf H2). Qed.

Theorem C87_history (H1 H2 : HashIter) (os : list edit_op) : @eg_run H1 eg_new os = @eg_run H2 eg_new os.
Proof.
  destruct (@C01_editgraph_refines H1 os) as (g & Hg & HV & HE), (@C01_editgraph_refines H2 os) as (h & Hh & HV' & HE').
  rewrite Hg, Hh. do 2 f_equal. apply (reachable_same H1 H2); [by do 2 eexists..| |].
  - intros x. by rewrite HV, HV'.
  - intros x y. by rewrite HE, HE'.
Qed.

Lemma same_size (X Y : gset N) (P : N → Prop) : (∀ x, x ∈ X ↔ P x) → (∀ x, x ∈ Y ↔ P x) → size X = size Y.
Proof. intros HX HY. f_equal. apply set_eq. intros x. by rewrite HX, HY. Qed.

Theorem C87_bulk (H1 H2 : HashIter) (g : editgraph) : @eg_reachable H1 g →
  @eg_remove_loops H1 g = @eg_remove_loops H2 g ∧ @eg_remove_isolates H1 g = @eg_remove_isolates H2 g ∧
  (∀ c X, eg_contains g c = true → (∀ v, v ∈ X → eg_contains g v = true) → @eg_contract_into H1 g c X = @eg_contract_into H2 g c X) ∧
  (∀ X, (∀ v, v ∈ X → eg_contains g v = true) → @eg_contract H1 g X = @eg_contract H2 g X) ∧
  (∀ u v, eg_contains g u = true → eg_contains g v = true → u ≠ v → @eg_contract_pair H1 g u v = @eg_contract_pair H2 g u v).
Proof.
  intros Hg1. pose proof (reachable_any H1 H2 g Hg1) as Hg2.
  assert (∀ c X, eg_contains g c = true → (∀ v, v ∈ X → eg_contains g v = true) → @eg_contract_into H1 g c X = @eg_contract_into H2 g c X) as Hci.
  { intros c X Hc HX. destruct (@C09_contract_into H1 g c X Hg1 Hc HX) as (h & -> & Hr & HV & HE & HE1 & HE2).
    destruct (@C09_contract_into H2 g c X Hg2 Hc HX) as (h' & -> & Hr' & HV' & HE' & HE1' & HE2').
    f_equal. apply (reachable_same H1 H2); [done|done| |].
    - intros x. by rewrite HV, HV'.
    - intros x y. pose proof (wf_adj_sym _ (@C10_reachable_wf H1 h Hr)) as Hs. pose proof (wf_adj_sym _ (@C10_reachable_wf H2 h' Hr')) as Hs'.
      destruct (decide (x = c)) as [->|Hx], (decide (y = c)) as [->|Hy].
      + by rewrite HE2, HE2'.
      + by rewrite HE1, HE1'.
      + transitivity (eg_adjacent h c x = true); [split; apply Hs|]. transitivity (eg_adjacent h' c x = true); [|split; apply Hs'].
        by rewrite HE1, HE1'.
      + by rewrite HE, HE'. }
  split_and!.
  - destruct (@C08_remove_loops H1 g Hg1) as (h & k & -> & Hr & HV & HE & X & HX & ->).
    destruct (@C08_remove_loops H2 g Hg2) as (h' & k' & -> & Hr' & HV' & HE' & X' & HX' & ->).
    do 2 f_equal; [|eapply same_size; [exact HX|exact HX']]. apply (reachable_same H1 H2); [done|done| |].
    + intros x. by rewrite HV, HV'.
    + intros x y. by rewrite HE, HE'.
  - destruct (@C08_remove_isolates H1 g Hg1) as (h & k & -> & Hr & HV & HE & X & HX & ->).
    destruct (@C08_remove_isolates H2 g Hg2) as (h' & k' & -> & Hr' & HV' & HE' & X' & HX' & ->).
    do 2 f_equal; [|eapply same_size; [exact HX|exact HX']]. apply (reachable_same H1 H2); [done|done| |].
    + intros x. by rewrite HV, HV'.
    + intros x y. by rewrite HE, HE'.
  - done.
  - intros [|u X] HX; [done|].
    destruct (@C09_contract H1 g u X Hg1 HX) as (h & -> & Hh & _), (@C09_contract H2 g u X Hg2 HX) as (h' & -> & Hh' & _).
    do 2 f_equal. rewrite (Hci u (u :: X)) in Hh; [|apply HX; left|done]. congruence.
  - intros u v Hu Hv Huv. destruct (@C09_contract_pair_partial H1 g u v Hg1 Hu Hv Huv) as (h & -> & Hr & HV & HE & HE1 & HE2).
    destruct (@C09_contract_pair_partial H2 g u v Hg2 Hu Hv Huv) as (h' & -> & Hr' & HV' & HE' & HE1' & HE2').
    f_equal. apply (reachable_same H1 H2); [done|done| |].
    + intros x. by rewrite HV, HV'.
    + intros x y. pose proof (wf_adj_sym _ (@C10_reachable_wf H1 h Hr)) as Hs. pose proof (wf_adj_sym _ (@C10_reachable_wf H2 h' Hr')) as Hs'.
      destruct (decide (x = u)) as [->|Hx], (decide (y = u)) as [->|Hy].
      * by rewrite HE2, HE2'.
      * by rewrite HE1, HE1'.
      * transitivity (eg_adjacent h u x = true); [split; apply Hs|]. transitivity (eg_adjacent h' u x = true); [|split; apply Hs'].
        by rewrite HE1, HE1'.
      * by rewrite HE, HE'.
Qed.

(** The order computed by degeneracy does depend on the hash order. *)
Theorem C87_order_differs : ∃ (g : editgraph) lo up core o1 o2, @eg_reachable std_iter g ∧ loopless (@eg_graph std_iter g) ∧
  @degeneracy std_iter (@eg_graph std_iter g) = Ok (lo, up, o1, core) ∧
  @degeneracy rev_iter (@eg_graph rev_iter g) = Ok (lo, up, o2, core) ∧ o1 ≠ o2.
Proof.
  set (g := ex_edit [(0, 1); (1, 2); (2, 3); (3, 0); (3, 4)]%N).
  assert (@eg_reachable std_iter g) as Hr.
  { destruct (@C01_editgraph_refines std_iter (ex_ops_of [(0, 1); (1, 2); (2, 3); (3, 0); (3, 4)]%N)) as (h & Hh & _).
    unfold g, ex_edit. rewrite Hh. do 2 eexists. exact Hh. }
  assert (loopless (@eg_graph std_iter g)) as Hl.
  { intros u Hu. apply (proj2 (ex_edit_spec [(0, 1); (1, 2); (2, 3); (3, 0); (3, 4)]%N) u u) in Hu.
    assert ((u, u) ∈ [(0, 1); (1, 2); (2, 3); (3, 0); (3, 4)]%N) as Hin by (by destruct Hu). clear Hu.
    repeat (apply elem_of_cons in Hin as [Hin|Hin]; [injection Hin as ? ?; lia|]). by apply elem_of_nil in Hin. }
  destruct (C87_degeneracy std_iter rev_iter _ _ (@C10_reachable_wf std_iter g Hr)
    (@C10_reachable_wf rev_iter g (reachable_any _ _ _ Hr)) Hl (eg_same_graph _ _ g)) as (lo & up & core & o1 & o2 & Hd1 & Hd2 & _).
  exists g, lo, up, core, o1, o2. split_and!; [done..|].
  assert (match @degeneracy std_iter (@eg_graph std_iter g), @degeneracy rev_iter (@eg_graph rev_iter g) with
          | Ok (_, _, o1, _), Ok (_, _, o2, _) => bool_decide (o1 = o2) = false | _, _ => False end) as Hne by (vm_compute; reflexivity).
  rewrite Hd1, Hd2 in Hne. by apply bool_decide_eq_false in Hne.
Qed.

(** ** Examples: the same history under two hash orders, on a triangle with a tail and a separate edge. *)
Definition ex_det2_edges : list (N * N) := [(0, 1); (1, 2); (2, 0); (2, 3); (3, 4); (6, 7)]%N.
Example ex_C87_hyps : graph_wf (@eg_graph std_iter (ex_edit ex_det2_edges)) ∧ graph_wf (@eg_graph rev_iter (ex_edit ex_det2_edges)) ∧
  loopless (@eg_graph std_iter (ex_edit ex_det2_edges)).
Proof.
  destruct (ex_edit_spec ex_det2_edges) as [Hwf HE]. destruct (@C01_editgraph_refines std_iter (ex_ops_of ex_det2_edges)) as (h & Hh & _).
  split_and!; [exact Hwf| |].
  - apply (@C10_reachable_wf rev_iter), (reachable_any std_iter). unfold ex_edit. rewrite Hh. do 2 eexists. exact Hh.
  - intros u Hu. apply HE in Hu. assert ((u, u) ∈ ex_det2_edges) as Hin by (by destruct Hu). clear -Hin. unfold ex_det2_edges in Hin.
    repeat (apply elem_of_cons in Hin as [Hin|Hin]; [injection Hin as ? ?; lia|]). by apply elem_of_nil in Hin.
Qed.
Example ex_C87 :
  match @degeneracy std_iter (@eg_graph std_iter (ex_edit ex_det2_edges)), @degeneracy rev_iter (@eg_graph rev_iter (ex_edit ex_det2_edges)) with
  | Ok (lo1, up1, o1, c1), Ok (lo2, up2, o2, c2) =>
      (lo1, up1, map_to_list c1) = (lo2, up2, map_to_list c2) ∧ up1 = 2 ∧ o1 = [2; 1; 0; 3; 4; 6; 7]%N
  | _, _ => False
  end.
Proof. vm_compute. split_and!; reflexivity. Qed.

Print Assumptions C87_degeneracy.
Print Assumptions C87_degeneracy_monotone.
Print Assumptions C87_components.
Print Assumptions C87_bipartite.
Print Assumptions C87_neighbourhoods.
Print Assumptions C87_operations.
Print Assumptions C87_history.
Print Assumptions C87_bulk.
Print Assumptions C87_order_differs.
