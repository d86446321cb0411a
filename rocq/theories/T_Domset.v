(** Property theorems C46-C50 and further theorems for C45: dominating sets, their witnesses,
    scattered colourings, distances from weak reachability, greedy colourings of degeneracy
    orders. *)
From Verif Require Import Base Spec M_Graph M_Iterators M_EditGraph M_Operations M_OrdGraph M_Linear M_Colouring M_Domset
  S_Graph S_Linear S_Reach S_Cliques P_Graph P_EditGraph P_EditGraph2 P_Adds P_Operations P_OrdGraph P_OrdGraph2 P_Linear P_Linear2
  P_Wdist P_Cliques T_Algorithms T_OrdGraph T_Linear P_Greedy P_Colouring P_Domset P_Conflict P_Scattered Examples.

(** ** C45, continued *)
(** The greedy colouring is total on orders in which the number of left neighbours grows slowly. *)
Theorem C45_slow_orders (L : lgraph) : lgraph_wf L → left_degrees_rise_slowly L →
  ∃ c d, colour_greedy L = Ok c ∧ (∀ v, contains L v = true ↔ is_Some (c !! v)) ∧
    (∀ u v a b, adj L u v → c !! u = Some a → c !! v = Some b → a ≠ b) ∧
    max_left_degree L = Ok d ∧ ∀ v a, c !! v = Some a → (a < N.of_nat (d + 1))%N.
Proof.
  intros HL Hs. destruct (greedy_slow L HL Hs) as (c & Hc & Hall).
  destruct (C45_colour_greedy_partial L c HL Hc) as (Hp & Hv & d & Hd & Hb). exists c, d.
  split_and!; [done| |done|done|done]. intros v. split; auto.
Qed.

(** Degeneracy orders of graphs all of whose subgraphs have a vertex of degree at most 129. *)
Theorem C45_by_degeneracy `{HashIter} (G : graph) : graph_wf G → loopless G →
  (∀ H k, H ≠ ∅ → min_degree G H k → k ≤ 129) →
  ∃ g c, og_by_degeneracy G = Ok g ∧ colour_greedy (og_lgraph g) = Ok c ∧ (∀ v, is_Some (c !! v) ↔ contains G v = true) ∧
    (∀ u v a b, adj G u v → c !! u = Some a → c !! v = Some b → a ≠ b).
Proof. intros HG Hl Hd. destruct (by_degeneracy_greedy G HG Hl Hd) as (g & c & ? & _ & ? & ? & ?). eauto 10. Qed.

(** ** C46 *)
(** [D] consists of vertices, and every target [v] has a recorded distance of at most [r] that
    bounds its distance to [D]. *)
Definition dominates (L : lgraph) (r : nat) (T : list N) (D : gset N) (dd : gmap N nat) : Prop :=
  (∀ x, x ∈ D → contains L x = true) ∧
  ∀ v, v ∈ T → contains L v = true → ∃ k x, dd !! v = Some k ∧ k ≤ r ∧ x ∈ D ∧ within (adj L) k x v.

(** The square of [2*r] fits a u32. *)
Definition radius_ok (r : nat) : Prop := (N.of_nat (2 * r) * N.of_nat (2 * r) < u32_mod)%N.

(** The exceptional case of empty graphs and targets. *)
Lemma ds_empty L (T : list N) : lgraph_wf L → g_is_empty L || bool_decide ((collect_set T : gset N) = ∅) = true →
  ∀ v, v ∈ T → contains L v = true → False.
Proof.
  intros HL [He|He]%orb_true_iff v Hv Hc.
  - unfold g_is_empty, g_len in He. rewrite (wf_num_vertices _ (lwf_graph L HL)) in He. apply Nat.eqb_eq, nil_length_inv in He.
    apply (vs_vtx L HL) in Hc. rewrite He in Hc. set_solver.
  - apply bool_decide_eq_true in He. assert (v ∈ (collect_set T : gset N)) as Hin by (by apply elem_of_list_to_set). rewrite He in Hin. set_solver.
Qed.

Lemma radius_small r : radius_ok r → (N.of_nat (2 * r) + 1 < u32_mod)%N.
Proof. unfold radius_ok, u32_mod. intros Hr. destruct (N.le_gt_cases 65536 (N.of_nat (2 * r))) as [Hle|Hlt]; [|lia]. nia. Qed.

Section with_iter.
Context `{HashIter}.

(** Everything known about a run after the loop. *)
Lemma domset_run L r witness T : lgraph_wf L → radius_ok r →
  (g_is_empty L || bool_decide ((collect_set T : gset N) = ∅) = true ∧
    domset_with_target L r witness T = Ok (∅, ∅, if witness then Some ∅ else None)) ∨
  ∃ (D : gset N) (dd : gmap N nat) (sc : gset N), dominates L r T D dd ∧ (∀ x, x ∈ D → dd !! x = Some 0) ∧ (∀ x, x ∈ sc → x ∈ D ∧ x ∈ T) ∧
    (∀ v k, dd !! v = Some k → v ∈ T ∨ k < r → ∃ x, x ∈ D ∧ within (adj L) k x v) ∧
    (∀ v, is_Some (dd !! v) ↔ contains L v = true) ∧ (sc = ∅ → D = ∅) ∧
    (witness = false → domset_with_target L r witness T = Ok (D, dd, None)) ∧
    (witness = true → ∃ h, eg_wf h ∧ (∀ x, ev h x ↔ x ∈ sc) ∧
      (∀ x y, ea h x y ↔ x ∈ sc ∧ y ∈ sc ∧ x ≠ y ∧ within (adj L) (2 * r) x y) ∧
      domset_with_target L r witness T = (c ← ds_colours h; Ok (D, dd, Some c))).
Proof.
  intros HL Hr. unfold domset_with_target. destruct (g_is_empty L || bool_decide ((collect_set T : gset N) = ∅)) eqn:He; [by left|].
  right. unfold radius_ok in Hr. pose proof (radius_small r Hr) as Hr1.
  replace (N.of_nat (2 * r) * N.of_nat (2 * r) <? u32_mod)%N with true by (symmetry; by apply N.ltb_lt).
  cbn [assert_res mbind res_bind]. destruct (ds_order_spec L HL) as (order & -> & Ho). cbn [mbind res_bind].
  destruct (wreach_sets_spec L HL r) as (W & HWok & HWm); [lia|]. rewrite HWok. cbn [mbind res_bind].
  destruct (ds_loop_spec L HL r W HWm (collect_set T) r (2 * r * (2 * r)) order Ho) as (st & -> & [Hdd Hcnt Hz HdV Hscat Hemp Hpre]).
  cbn [mbind res_bind]. exists (ds_dom st), (ds_dd st), (ds_scat st). destruct Hdd as (Hd1 & Hd2 & Hd3).
  assert (∀ x, x ∈ (collect_set T : gset N) ↔ x ∈ T) as HT by (intros x; apply elem_of_list_to_set).
  assert (∀ v, contains L v = true → ∃ k, ds_dd st !! v = Some k ∧ k ≤ r) as Hle.
  { intros v Hv. apply Hpre. rewrite Ho. by apply (vs_vtx L HL). }
  assert (∀ v k, ds_dd st !! v = Some k → v ∈ T ∨ k < r → ∃ x, x ∈ ds_dom st ∧ within (adj L) k x v) as Hjust.
  { intros v k Hk Hc. apply (Hd2 v k Hk). destruct (Hle v) as (k' & Hk' & Hkr); [apply Hd1; by exists k|]. simplify_eq.
    destruct (decide (k < r)); [by left|]. right. split; [lia|]. apply HT. destruct Hc; [done|lia]. }
  split_and!; [split; [exact HdV|]|exact Hz| |exact Hjust|exact Hd1|exact Hemp| |].
  - intros v Hv Hc. destruct (Hle v Hc) as (k & Hk & Hkr). destruct (Hjust v k Hk) as (x & Hx & Hw); [by left|]. eauto 10.
  - intros x Hx. destruct (Hscat x Hx) as [? ?%HT]. done.
  - by intros ->.
  - intros ->. cbn [negb]. destruct (wreach_sets_spec L HL (2 * r)) as (W2 & HW2 & HWm2); [lia|]. rewrite HW2. cbn [mbind res_bind].
    destruct (ds_conflict_spec L HL (2 * r) W2 HWm2 true (ds_scat st) r) as (h & -> & Hh & Hev & Hea); [|done|done|].
    { intros x [? _]%Hscat. by apply HdV. }
    cbn [mbind res_bind]. exists h. done.
Qed.

(** Without a witness the algorithm always succeeds and dominates the target. *)
Theorem C46_domset_with_target (L : lgraph) (r : nat) (T : list N) : lgraph_wf L → radius_ok r →
  ∃ D dd, domset_with_target L r false T = Ok (D, dd, None) ∧ dominates L r T D dd.
Proof.
  intros HL Hr. destruct (domset_run L r false T HL Hr) as [[He Hok]|(D & dd & sc & Hdom & _ & _ & _ & _ & _ & Hok & _)].
  - exists ∅, ∅. split; [done|]. split; [set_solver|]. intros v Hv Hc. by destruct (ds_empty L T HL He v Hv Hc).
  - exists D, dd. split; [by apply Hok|done].
Qed.
Theorem C46_domset (L : lgraph) (r : nat) : lgraph_wf L → radius_ok r →
  ∃ D dd, domset L r false = Ok (D, dd, None) ∧ (∀ x, x ∈ D → contains L x = true) ∧
    (∀ v, contains L v = true → ∃ x, x ∈ D ∧ within (adj L) r x v).
Proof.
  intros HL Hr. destruct (C46_domset_with_target L r (vertices L) HL Hr) as (D & dd & Hok & HD & Hdom).
  exists D, dd. split; [done|]. split; [done|]. intros v Hv. destruct (Hdom v) as (k & x & _ & Hk & Hx & Hw); [by apply (vs_vtx L HL)|done|].
  exists x. split; [done|]. by eapply within_mono.
Qed.
(** With a witness the same holds of every returned value; it is returned if there are at most
    130 different targets. *)
Theorem C46_with_witness_partial (L : lgraph) (r : nat) (T : list N) : lgraph_wf L → radius_ok r →
  (∀ D dd w, domset_with_target L r true T = Ok (D, dd, w) → dominates L r T D dd) ∧
  domset_with_target L r true T ≠ Diverge ∧
  (size (list_to_set T : gset N) ≤ 130 → ∃ D dd c, domset_with_target L r true T = Ok (D, dd, Some c)).
Proof.
  intros HL Hr. destruct (domset_run L r true T HL Hr) as [[He Hok]|(D & dd & sc & Hdom & _ & Hsc & _ & _ & _ & _ & Hok)].
  - rewrite Hok. split_and!; [|done|eauto]. intros D dd w [= <- <- <-]. split; [set_solver|].
    intros v Hv Hc. by destruct (ds_empty L T HL He v Hv Hc).
  - destruct (Hok eq_refl) as (h & Hh & Hev & Hea & ->).
    assert (∀ x, ¬ ea h x x) as Hll by (intros x (_ & _ & ? & _)%Hea; done). split_and!.
    + intros D' dd' w (c & Hc & Hq)%bind_ok. by simplify_eq.
    + destruct (ds_colours_spec h Hh Hll) as [->|(c & -> & _)]; done.
    + intros Hsz. destruct (ds_colours_total h Hh Hll) as (c & -> & _); [|cbn; eauto].
      pose proof (eg_graph_wf h Hh) as Hg. change (eg_num_vertices h) with (num_vertices (eg_graph h)).
      rewrite (wf_num_vertices _ Hg). etrans; [|exact Hsz]. apply submseteq_length, NoDup_submseteq; [apply Hg|].
      intros x Hx. apply elem_of_elements, elem_of_list_to_set. apply Hsc, Hev. by apply eg_vertices in Hx.
Qed.
(** Every non-empty set of targets has a member with at most 129 others within distance [d]. *)
Definition uncrowded (L : lgraph) (d : nat) (T : list N) : Prop :=
  ∀ S : gset N, S ≠ ∅ → (∀ x, x ∈ S → x ∈ T) →
    ∃ x, x ∈ S ∧ ∀ l, NoDup l → (∀ y, y ∈ l → y ∈ S ∧ y ≠ x ∧ within (adj L) d x y) → length l ≤ 129.

(** With uncrowded targets a witness is always returned, and it colours something if there is
    something to dominate. *)
Theorem C46_uncrowded (L : lgraph) (r : nat) (T : list N) : lgraph_wf L → radius_ok r → uncrowded L (2 * r) T →
  ∃ D dd c, domset_with_target L r true T = Ok (D, dd, Some c) ∧ dominates L r T D dd ∧
    ((∃ v, v ∈ T ∧ contains L v = true) → ∃ u a, c !! u = Some a).
Proof.
  intros HL Hr Hun. destruct (domset_run L r true T HL Hr) as [[He Hok]|(D & dd & sc & Hdom & _ & Hsc & _ & _ & Hemp & _ & Hok)].
  - exists ∅, ∅, ∅. split_and!; [done| |].
    + split; [set_solver|]. intros v Hv Hc. by destruct (ds_empty L T HL He v Hv Hc).
    + intros (v & Hv & Hc). by destruct (ds_empty L T HL He v Hv Hc).
  - destruct (Hok eq_refl) as (h & Hh & Hev & Hea & ->).
    destruct (ds_colours_uncrowded L h (2 * r) sc Hh Hev) as (c & -> & Hall); [by intros x y (_ & _ & ? & ?)%Hea| |].
    { intros S Hne HS. apply (Hun S Hne). intros x Hx. by apply Hsc, HS. }
    exists D, dd, c. cbn [mbind res_bind]. split_and!; [done|done|]. intros (v & Hv & Hc).
    destruct (proj2 Hdom v Hv Hc) as (_ & x & _ & _ & Hx & _).
    assert (∃ u, u ∈ sc) as [u Hu]. { apply set_choose_L. intros He. rewrite (Hemp He) in Hx. set_solver. }
    exists u. apply Hall. by apply Hev.
Qed.
(** From radius 32768 on, [(2*radius).pow(2)] overflows. *)
Theorem C46_large_radius_refuted (L : lgraph) (r : nat) (witness : bool) (T : list N) (v w : N) : lgraph_wf L →
  contains L v = true → w ∈ T → (32768 <= N.of_nat r)%N → domset_with_target L r witness T = Panic.
Proof.
  intros HL Hv Hw Hr. unfold domset_with_target.
  replace (g_is_empty L || bool_decide ((collect_set T : gset N) = ∅)) with false; [|symmetry; apply orb_false_iff; split].
  - replace (N.of_nat (2 * r) * N.of_nat (2 * r) <? u32_mod)%N with false; [done|]. symmetry. apply N.ltb_ge. unfold u32_mod. nia.
  - unfold g_is_empty, g_len. rewrite (wf_num_vertices _ (lwf_graph L HL)). apply Nat.eqb_neq. intros He%nil_length_inv.
    apply (vs_vtx L HL) in Hv. rewrite He in Hv. set_solver.
  - apply bool_decide_eq_false. intros He. assert (w ∈ (collect_set T : gset N)) as Hin by (by apply elem_of_list_to_set).
    rewrite He in Hin. set_solver.
Qed.

(** ** C47 *)
(** What does hold: all recorded distances are at most [r]; 0 marks exactly the dominating set;
    every recorded distance is an upper bound. *)
Theorem C47_upper_bounds_partial (L : lgraph) (r : nat) : lgraph_wf L → radius_ok r → vertices L ≠ [] →
  ∃ D dd, domset L r false = Ok (D, dd, None) ∧
    ∀ v, contains L v = true → ∃ k, dd !! v = Some k ∧ k ≤ r ∧ (∃ x, x ∈ D ∧ within (adj L) k x v) ∧ (k = 0 ↔ v ∈ D).
Proof.
  intros HL Hr Hne. destruct (domset_run L r false (vertices L) HL Hr) as [[He Hok]|(D & dd & sc & [_ Hdom] & Hz & _ & _ & _ & _ & Hok & _)].
  - exfalso. destruct (vertices L) as [|v vs] eqn:E; [done|]. assert (v ∈ vertices L) as Hv by (rewrite E; left).
    rewrite <- E in He. apply (ds_empty L (vertices L) HL He v Hv). by apply (vs_vtx L HL).
  - exists D, dd. split; [by apply Hok|]. intros v Hv. destruct (Hdom v) as (k & x & Hk & Hkr & Hx & Hw); [by apply (vs_vtx L HL)|done|].
    exists k. split_and!; [done|done|eauto|]. split.
    + intros ->. apply within_0 in Hw as ->. done.
    + intros Hv2. apply Hz in Hv2. congruence.
Qed.
(** Recorded distances 0 and 1 are exact, so the full claim holds for radius 1. *)
Theorem C47_small_values (L : lgraph) (r : nat) : lgraph_wf L → radius_ok r → vertices L ≠ [] →
  ∃ D dd, domset L r false = Ok (D, dd, None) ∧
    (∀ v k j x, contains L v = true → dd !! v = Some k → k ≤ 1 → x ∈ D → within (adj L) j x v → k ≤ j) ∧
    (r = 1 → ∀ v, contains L v = true → ∃ k, dd !! v = Some k ∧ (∃ x, x ∈ D ∧ within (adj L) k x v) ∧
      ∀ j x, x ∈ D → within (adj L) j x v → k ≤ j).
Proof.
  intros HL Hr Hne. destruct (C47_upper_bounds_partial L r HL Hr Hne) as (D & dd & Hok & Hdd). exists D, dd. split; [done|].
  assert (∀ v k j x, contains L v = true → dd !! v = Some k → k ≤ 1 → x ∈ D → within (adj L) j x v → k ≤ j) as HH.
  { intros v k j x Hv Hk Hk1 Hx Hw. destruct (Hdd v Hv) as (k' & Hk' & _ & _ & H0). simplify_eq.
    destruct j as [|j]; [|lia]. apply within_0 in Hw as ->. apply H0 in Hx. lia. }
  split; [exact HH|]. intros -> v Hv. destruct (Hdd v Hv) as (k & Hk & Hk1 & Hw & _). exists k. split; [done|]. split; [done|].
  intros j x Hx. by apply (HH v k j x).
Qed.

(** ** C48 *)
Theorem C48_witness (L : lgraph) (r : nat) (T : list N) (D : gset N) dd w : lgraph_wf L →
  domset_with_target L r true T = Ok (D, dd, w) →
  ∃ c, w = Some c ∧ (∀ v a, c !! v = Some a → v ∈ D ∧ v ∈ T) ∧
    ∀ u v a n, c !! u = Some a → c !! v = Some a → u ≠ v → nsteps (adj L) n u v → 2 * r + 1 ≤ n.
Proof.
  intros HL. destruct (decide (N.of_nat (2 * r) * N.of_nat (2 * r) < u32_mod)%N) as [Hr|Hr]; cycle 1.
  { unfold domset_with_target. destruct (g_is_empty L || _).
    - intros [= <- <- <-]. exists ∅. done.
    - replace (N.of_nat (2 * r) * N.of_nat (2 * r) <? u32_mod)%N with false; [done|]. symmetry. apply N.ltb_ge. lia. }
  destruct (domset_run L r true T HL Hr) as [[_ ->]|(D' & dd' & sc & _ & _ & Hsc & _ & _ & _ & _ & Hok)].
  - intros [= <- <- <-]. exists ∅. done.
  - destruct (Hok eq_refl) as (h & Hh & Hev & Hea & ->). intros (c & Hc & Hq)%bind_ok. simplify_eq.
    assert (∀ x, ¬ ea h x x) as Hll by (intros x (_ & _ & ? & _)%Hea; done).
    destruct (ds_colours_spec h Hh Hll) as [Hp|(c' & Hc' & Hdom & Hprop)]; [congruence|]. rewrite Hc in Hc'. injection Hc' as <-.
    exists c. split; [done|]. split.
    + intros v a [Hv _]%Hdom. by apply Hsc, Hev.
    + intros u v a n Hu Hv Hne Hn. destruct (decide (2 * r + 1 ≤ n)) as [|Hlt]; [done|]. exfalso.
      apply (Hprop u v a a); [|done|done|done]. apply Hea. split_and!; [by apply Hev, (Hdom u a)|by apply Hev, (Hdom v a)|done|].
      exists n. split; [lia|done].
Qed.
(** With at most 130 targets the witness is not empty if there is something to dominate. *)
Theorem C48_witness_not_empty (L : lgraph) (r : nat) (T : list N) v : lgraph_wf L → radius_ok r →
  size (list_to_set T : gset N) ≤ 130 → v ∈ T → contains L v = true →
  ∃ D dd c u a, domset_with_target L r true T = Ok (D, dd, Some c) ∧ c !! u = Some a ∧ u ∈ T.
Proof.
  intros HL Hr Hsz HvT Hv. destruct (domset_run L r true T HL Hr) as [[He _]|(D & dd & sc & [_ Hdom] & _ & Hsc & _ & _ & Hemp & _ & Hok)].
  - by destruct (ds_empty L T HL He v HvT Hv).
  - destruct (Hok eq_refl) as (h & Hh & Hev & Hea & ->).
    assert (∀ x, ¬ ea h x x) as Hll by (intros x (_ & _ & ? & _)%Hea; done).
    destruct (ds_colours_total h Hh Hll) as (c & -> & Hall).
    { pose proof (eg_graph_wf h Hh) as Hg. change (eg_num_vertices h) with (num_vertices (eg_graph h)).
      rewrite (wf_num_vertices _ Hg). etrans; [|exact Hsz]. apply submseteq_length, NoDup_submseteq; [apply Hg|].
      intros x Hx. apply elem_of_elements, elem_of_list_to_set. apply Hsc, Hev. by apply eg_vertices in Hx. }
    destruct (Hdom v HvT Hv) as (_ & x & _ & _ & Hx & _).
    assert (∃ u, u ∈ sc) as [u Hu]. { apply set_choose_L. intros He. rewrite (Hemp He) in Hx. set_solver. }
    destruct (proj2 (Hall u)) as [a Ha]; [by apply Hev|]. exists D, dd, c, u, a. split_and!; [done|done|by apply Hsc].
Qed.

(** ** C49 *)
(** The classes are non-empty, disjoint, cover exactly [T], and distinct members of a class have
    distance at least [b]. *)
Definition scattered_classes (L : lgraph) (b : nat) (T : list N) (l : list (gset N)) : Prop :=
  (∀ X, X ∈ l → X ≠ ∅ ∧ ∀ x y n, x ∈ X → y ∈ X → x ≠ y → nsteps (adj L) n x y → b ≤ n) ∧
  (∀ i j X Y, l !! i = Some X → l !! j = Some Y → i ≠ j → X ## Y) ∧
  (∀ x, x ∈ T ↔ ∃ X, X ∈ l ∧ x ∈ X).

(** For every distance whose square fits a u32 and targets that are vertices: with enough fuel the
    algorithm does not run forever; the classes it returns are scattered for the distance rounded
    down to an even number. It returns on uncrowded targets; [B] is any decidable reason for that. *)
Lemma scattered_run (B : Prop) `{!Decision B} (L : lgraph) (d : nat) (T : list N) (fuel : nat) : lgraph_wf L →
  (N.of_nat d * N.of_nat d < u32_mod)%N → (∀ x, x ∈ T → contains L x = true) → length T < fuel →
  (B → uncrowded L (2 * (d / 2)) T ∧ (N.of_nat (size (list_to_set T : gset N)) < u32_mod)%N) →
  (¬ B ∧ scattered_colouring fuel L d T = Panic) ∨
  ∃ l, scattered_colouring fuel L d T = Ok l ∧ scattered_classes L (2 * (d / 2)) T l.
Proof.
  intros HL Hd HT Hfuel HB. unfold scattered_colouring.
  destruct (g_is_empty L || bool_decide ((collect_set T : gset N) = ∅)) eqn:He.
  { right. exists []. split; [done|]. split; [set_solver|]. split; [done|]. intros x. split; [|set_solver].
    intros Hx. by destruct (ds_empty L T HL He x Hx (HT x Hx)). }
  assert (N.of_nat d < 65536)%N as Hd1.
  { destruct (N.le_gt_cases 65536 (N.of_nat d)) as [Hle|Hlt]; [|lia]. unfold u32_mod in Hd. nia. }
  destruct (wreach_sets_spec L HL d) as (W & -> & HWm); [unfold u32_mod; lia|]. cbn [mbind res_bind].
  replace (N.of_nat d * N.of_nat d <? u32_mod)%N with true by (symmetry; by apply N.ltb_lt). cbn [assert_res mbind res_bind].
  destruct (ds_order_spec L HL) as (order & -> & Ho). cbn [mbind res_bind].
  set (T' := collect_set T : gset N). assert (∀ x, x ∈ T' ↔ x ∈ T) as HT' by (intros x; apply elem_of_list_to_set).
  assert (∀ x, x ∈ T' → vtx L x) as HTv by (intros x ?%HT'; by apply HT).
  assert (2 * (d / 2) ≤ d) as Hhalf by (pose proof (Nat.div_mod d 2); lia).
  assert (N.of_nat (2 * d) < u32_mod)%N as H2d by (unfold u32_mod; lia).
  assert (size T' ≤ length T) as Hsz.
  { unfold T', collect_set. clear. induction T as [|x T IH]; [done|]. cbn [list_to_set length]. 
    rewrite size_union_alt, size_singleton. etrans; [|apply le_n_S, IH].
    assert (size (list_to_set T ∖ {[x]} : gset N) ≤ size (list_to_set T : gset N)); [apply subseteq_size; set_solver|lia]. }
  destruct (sc_rounds_spec L HL d W HWm H2d d (d / 2) (Nat.le_refl d) Hhalf T' HTv B order (d * d) fuel)
    with (target := T') (m := (∅ : gmap N N)) as [[Hgt Hp]|(m & Hm & Hok)].
  { intros [Hun Hu]%HB. split; [|exact Hu]. intros S Hne HS. apply (Hun S Hne). intros x Hx. by apply HT', HS. }
  { exact Ho. }
  { lia. }
  { split; [intros u [? ?]; done|]. split; [intros u; split; [done|by intros [? _]]|]. split; intros *; rewrite lookup_empty; done. }
  { left. rewrite Hp. done. }
  right. rewrite Hm. cbn [mbind res_bind].
  pose proof (invert_fam L HL d W HWm H2d d (d / 2) (Nat.le_refl d) Hhalf T' HTv m Hok) as Hfam.
  destruct (sc_merge_spec L HL d W HWm H2d d (d / 2) (Nat.le_refl d) Hhalf T' HTv fuel (map_iter 32 (vm_invert m)).*2 []) as (l & Hl & [Hf Hsp] & Hne).
  { pose proof (ne_flat (map_iter 32 (vm_invert m)).*2) as Hn. destruct Hfam as [Hf _]. rewrite Hf in Hn.
    change (length (elements T')) with (size T') in Hn. lia. }
  { rewrite app_nil_r. exact Hfam. }
  { set_solver. }
  exists l. split; [done|]. split; [|split].
  - intros X HX. split; [by apply Hne|]. by apply Hsp.
  - assert (∀ i j X Y, i < j → l !! i = Some X → l !! j = Some Y → X ## Y) as Hdis.
    { intros i j X Y Hij HX HY. destruct (list_upd2 l i j X Y Hij HX HY) as (k & Hk & _).
      apply (flat_NoDup_disjoint X Y k). rewrite <- Hk, Hf. apply NoDup_elements. }
    intros i j X Y HX HY Hij. destruct (decide (i < j)); [by apply (Hdis i j)|]. symmetry. apply (Hdis j i); [lia|done|done].
  - intros x. rewrite <- HT', <- elem_of_elements, <- Hf. apply elem_of_flat.
Qed.

(** It fails only if there are more than 130 different targets. *)
Theorem C49_scattered_colouring_partial (L : lgraph) (d : nat) (T : list N) (fuel : nat) : lgraph_wf L →
  (N.of_nat d * N.of_nat d < u32_mod)%N → (∀ x, x ∈ T → contains L x = true) → length T < fuel →
  (130 < size (list_to_set T : gset N) ∧ scattered_colouring fuel L d T = Panic) ∨
  ∃ l, scattered_colouring fuel L d T = Ok l ∧ scattered_classes L (2 * (d / 2)) T l.
Proof.
  intros HL Hd HT Hfuel. destruct (scattered_run (size (list_to_set T : gset N) ≤ 130) L d T fuel HL Hd HT Hfuel) as [[? ?]|?]; [|left; split; [lia|done]|by right].
  intros Hsz. split; [|unfold u32_mod; lia]. intros S Hne HS. apply (uncrowded_small L (2 * (d / 2)) (list_to_set T) Hsz S Hne).
  intros x Hx. apply elem_of_list_to_set. by apply HS.
Qed.
(** It never fails on uncrowded targets. *)
Theorem C49_uncrowded (L : lgraph) (d : nat) (T : list N) (fuel : nat) : lgraph_wf L →
  (N.of_nat d * N.of_nat d < u32_mod)%N → (∀ x, x ∈ T → contains L x = true) → length T < fuel →
  uncrowded L (2 * (d / 2)) T → (N.of_nat (size (list_to_set T : gset N)) < u32_mod)%N →
  ∃ l, scattered_colouring fuel L d T = Ok l ∧ scattered_classes L (2 * (d / 2)) T l.
Proof.
  intros HL Hd HT Hfuel Hun Hsz. destruct (scattered_run True L d T fuel HL Hd HT Hfuel) as [[[] _]|?]; done.
Qed.
(** In particular, even distances are handled as documented. *)
Theorem C49_even_distance (L : lgraph) (d : nat) (T : list N) (fuel : nat) : lgraph_wf L →
  (N.of_nat d * N.of_nat d < u32_mod)%N → Nat.even d = true → (∀ x, x ∈ T → contains L x = true) → length T < fuel →
  size (list_to_set T : gset N) ≤ 130 →
  ∃ l, scattered_colouring fuel L d T = Ok l ∧ scattered_classes L d T l.
Proof.
  intros HL Hd He HT Hf Hsz. destruct (C49_scattered_colouring_partial L d T fuel HL Hd HT Hf) as [[? _]|(l & Hl & Hc)]; [lia|].
  exists l. split; [done|]. apply Nat.even_spec in He as [e ->]. by rewrite (Nat.mul_comm 2 e), Nat.div_mul in Hc by done.
Qed.
(** Distances whose square does not fit a u32 always fail. *)
Theorem C49_large_distance_refuted (L : lgraph) (d : nat) (T : list N) (fuel : nat) v w : lgraph_wf L →
  contains L v = true → w ∈ T → (u32_mod <= N.of_nat d * N.of_nat d)%N → (N.of_nat d + 1 < u32_mod)%N →
  scattered_colouring fuel L d T = Panic.
Proof.
  intros HL Hv Hw Hd Hd1. unfold scattered_colouring.
  replace (g_is_empty L || bool_decide ((collect_set T : gset N) = ∅)) with false; [|symmetry; apply orb_false_iff; split].
  - destruct (wreach_sets_spec L HL d Hd1) as (W & -> & _). cbn [mbind res_bind].
    replace (N.of_nat d * N.of_nat d <? u32_mod)%N with false; [done|]. symmetry. by apply N.ltb_ge.
  - unfold g_is_empty, g_len. rewrite (wf_num_vertices _ (lwf_graph L HL)). apply Nat.eqb_neq. intros He%nil_length_inv.
    apply (vs_vtx L HL) in Hv. rewrite He in Hv. set_solver.
  - apply bool_decide_eq_false. intros He. assert (w ∈ (collect_set T : gset N)) as Hin by (by apply elem_of_list_to_set).
    rewrite He in Hin. set_solver.
Qed.

(** ** C50 *)
Theorem C50_small_distance (L : lgraph) (r d : nat) (x y : N) : lgraph_wf L → d ≤ r → (N.of_nat (2 * r) + 1 < u32_mod)%N →
  contains L x = true → contains L y = true →
  ∃ W o, wreach_sets L r = Ok W ∧ small_distance W d x y = Ok o ∧
    (∀ k, o = Some k ↔ k ≤ d ∧ is_dist (adj L) k x y) ∧ (o = None ↔ ¬ within (adj L) d x y).
Proof.
  intros HL Hd Hr Hx Hy. destruct (wreach_sets_spec L HL r) as (W & HW & HWm); [lia|].
  destruct (small_distance_spec L HL r W HWm d x y Hd) as (o & Ho & Hs); [lia|done|done|].
  exists W, o. split_and!; [done|done|done|]. split.
  - intros -> (n & Hn & Hns). destruct (nsteps_dist L HL r W HWm ltac:(lia) n x y) as (k & Hk & Hdk); [lia|done|done|done|].
    assert (None = Some k) as HN; [|done]. apply Hs. split; [lia|done].
  - intros Hn. destruct o as [k|]; [|done]. exfalso. apply Hn. destruct (proj1 (Hs k) eq_refl) as [? [? _]]. exists k. done.
Qed.
Theorem C50_small_distance_sets (L : lgraph) (r d : nat) (X Y : gset N) : lgraph_wf L → d ≤ r → (N.of_nat (2 * r) + 1 < u32_mod)%N →
  (∀ x, x ∈ X → contains L x = true) → (∀ y, y ∈ Y → contains L y = true) →
  ∃ W o, wreach_sets L r = Ok W ∧ small_distance_sets W d X Y = Ok o ∧
    match o with
    | Some k => k ≤ d ∧ (∃ x y, x ∈ X ∧ y ∈ Y ∧ is_dist (adj L) k x y) ∧
        ∀ x y n, x ∈ X → y ∈ Y → nsteps (adj L) n x y → k ≤ n
    | None => ∀ x y n, x ∈ X → y ∈ Y → nsteps (adj L) n x y → d < n
    end.
Proof.
  intros HL Hd Hr HX HY. destruct (wreach_sets_spec L HL r) as (W & HW & HWm); [lia|].
  destruct (small_distance_sets_spec L HL r W HWm ltac:(lia) d X Y Hd HX HY) as (o & Ho & Hg).
  exists W, o. split; [done|]. split; [done|].
  assert (∀ x y n, x ∈ X → y ∈ Y → n ≤ d → nsteps (adj L) n x y → ∃ k, k ≤ n ∧ set_dist L d X Y k) as Hsd.
  { intros x y n Hx Hy Hn Hns. destruct (nsteps_dist L HL r W HWm ltac:(lia) n x y) as (k & Hk & Hdk); [lia|by apply HX|by apply HY|done|].
    exists k. split; [done|]. exists x, y. split_and!; [done|done|lia|done]. }
  destruct o as [k|].
  - destruct Hg as [(x & y & Hx & Hy & Hk & Hdk) Hmin]. split; [done|]. split; [eauto 10|].
    intros x' y' n Hx' Hy' Hn. destruct (decide (n ≤ d)) as [Hle|]; [|lia].
    destruct (Hsd x' y' n Hx' Hy' Hle Hn) as (j & Hj & Hj2). specialize (Hmin j Hj2). lia.
  - intros x y n Hx Hy Hn. destruct (decide (n ≤ d)) as [Hle|]; [|lia]. destruct (Hsd x y n Hx Hy Hle Hn) as (j & _ & Hj2).
    by apply Hg in Hj2.
Qed.

End with_iter.

(** ** Refutations *)
Local Existing Instance std_iter.

(** C45: a degeneracy order on which the greedy colouring panics: the complete graph on 136
    vertices without the edge 65-129. *)
Definition ex_k136 : list (N * N) := filter (λ e, e ≠ (65, 129)%N) (combinations2 (nrange 0 136)).
Theorem C45_by_degeneracy_refuted : ∃ G g, graph_wf G ∧ loopless G ∧ og_by_degeneracy G = Ok g ∧
  lgraph_wf (og_lgraph g) ∧ colour_greedy (og_lgraph g) = Panic.
Proof.
  destruct (ex_edit_spec ex_k136) as [Hwf Hadj]. set (G := eg_graph (ex_edit ex_k136)) in *.
  assert (loopless G) as Hl.
  { intros u Hu%Hadj. assert ((u, u) ∈ ex_k136) as Hin by (by destruct Hu). apply elem_of_list_filter in Hin as [_ Hin].
    apply elem_of_combinations2_1 in Hin as (_ & _ & Hne); [done|]. apply (bool_decide_unpack _). vm_compute. exact I. }
  destruct (C34_by_degeneracy G Hwf Hl) as (g & _ & _ & _ & _ & _ & Hg & HL & _). exists G, g.
  split_and!; [done|done|done|done|].
  assert (ds_colours (ex_edit ex_k136) = Panic) as Hp by (vm_compute; reflexivity).
  unfold ds_colours in Hp. fold G in Hp. rewrite Hg in Hp. exact Hp.
Qed.

(** C47: the vertex 5 is adjacent to the member 3 of the dominating set but its distance is
    recorded as 2. *)
Definition ex_c47 : lgraph := ex_lin [(4, 0); (4, 1); (4, 2); (5, 2); (5, 3)]%N [0; 1; 2; 3; 4; 5]%N.
Theorem C47_refuted : ∃ (L : lgraph) D dd v x, lgraph_wf L ∧ domset L 2 false = Ok (D, dd, None) ∧
  contains L v = true ∧ dd !! v = Some 2 ∧ x ∈ D ∧ within (adj L) 1 x v.
Proof.
  destruct (ex_lin_spec [(4, 0); (4, 1); (4, 2); (5, 2); (5, 3)]%N [0; 1; 2; 3; 4; 5]%N) as (_ & Hwf & _ & Hc & Ha); [vm_compute; done|].
  assert (match domset ex_c47 2 false with
    | Ok (D, dd, None) => bool_decide (dd !! 5%N = Some 2) && bool_decide (3%N ∈ D) | _ => false end = true) as Hcomp by (vm_compute; done).
  destruct (domset ex_c47 2 false) as [[[D dd] [w|]]| |] eqn:E; [discriminate Hcomp| |discriminate Hcomp..].
  apply andb_true_iff in Hcomp as [H1%bool_decide_eq_true H2%bool_decide_eq_true].
  exists ex_c47, D, dd, 5%N, 3%N. split_and!; [exact Hwf|exact E|vm_compute; done|exact H1|exact H2|].
  - exists 1. split; [done|]. apply nsteps_once. apply Ha. right. clear. set_solver.
Qed.
(** The entry of a vertex that is not a target says nothing: the vertex 2 is not dominated at all. *)
Theorem C47_non_target_refuted : ∃ (L : lgraph) D dd, lgraph_wf L ∧ domset_with_target L 1 false [0%N] = Ok (D, dd, None) ∧
  contains L 2 = true ∧ dd !! 2%N = Some 1 ∧ ∀ x, x ∈ D → ¬ adj L x 2%N ∧ x ≠ 2%N.
Proof.
  destruct (ex_lin_spec [(0, 1); (1, 2)]%N [0; 1; 2]%N) as (_ & Hwf & _ & Hc & Ha); [vm_compute; done|].
  set (L := ex_lin [(0, 1); (1, 2)]%N [0; 1; 2]%N) in *.
  assert (match domset_with_target L 1 false [0%N] with
    | Ok (D, dd, None) => bool_decide (dd !! 2%N = Some 1) && bool_decide (D = {[0%N]}) | _ => false end = true) as Hcomp by (vm_compute; done).
  destruct (domset_with_target L 1 false [0%N]) as [[[D dd] [w|]]| |] eqn:E; [discriminate Hcomp| |discriminate Hcomp..].
  apply andb_true_iff in Hcomp as [H1%bool_decide_eq_true H2%bool_decide_eq_true].
  exists L, D, dd. split_and!; [exact Hwf|exact E|vm_compute; done|exact H1|].
  intros x Hx. assert (x = 0%N) as -> by (clear -Hx H2; set_solver). split; [|done].
  intros Hadj%Ha. clear -Hadj. set_solver.
Qed.

(** C46 and C49: a spider.  136 legs meet in the hub 136; the ends of the legs are 0..135; two legs
    have length 7, the others 4.  At radius 6 all ends are scattered and the conflict graph is
    [ex_k136]. *)
Definition ex_leg (i : N) : list N :=
  136%N :: ((λ j, 137 + 6 * i + j)%N <$> nrange 0 (if (i =? 65)%N || (i =? 129)%N then 6 else 3)) ++ [i].
Fixpoint ex_path_edges (l : list N) : list (N * N) :=
  match l with a :: ((b :: _) as l') => (a, b) :: ex_path_edges l' | _ => [] end.
Definition ex_spider_edges : list (N * N) := nrange 0 136 ≫= λ i, ex_path_edges (ex_leg i).
Definition ex_spider_order : list N := 136%N :: (nrange 0 136 ≫= λ i, drop 1 (ex_leg i)).
Definition ex_spider : lgraph := ex_lin ex_spider_edges ex_spider_order.
Lemma ex_spider_wf : lgraph_wf ex_spider ∧ ∀ x, x ∈ nrange 0 136 → contains ex_spider x = true.
Proof.
  destruct (ex_lin_spec ex_spider_edges ex_spider_order) as (_ & Hwf & _ & Hc & _); [vm_compute; done|].
  split; [exact Hwf|]. intros x Hx. apply Hc. assert (Forall (λ x, x ∈ ex_spider_order) (nrange 0 136)) as HF.
  { apply (bool_decide_unpack _). vm_compute. exact I. }
  rewrite Forall_forall in HF. by apply HF.
Qed.
Theorem C46_witness_refuted : ∃ (L : lgraph) r T, lgraph_wf L ∧ radius_ok r ∧ (∀ x, x ∈ T → contains L x = true) ∧
  domset_with_target L r true T = Panic.
Proof.
  exists ex_spider, 6, (nrange 0 136). split; [apply ex_spider_wf|]. split; [vm_compute; done|].
  split; [apply ex_spider_wf|]. vm_compute. reflexivity.
Qed.
Theorem C49_panic_refuted : ∃ (L : lgraph) d T, lgraph_wf L ∧ (N.of_nat d * N.of_nat d < u32_mod)%N ∧ Nat.even d = true ∧
  (∀ x, x ∈ T → contains L x = true) ∧ scattered_colouring 137 L d T = Panic.
Proof.
  exists ex_spider, 12, (nrange 0 136). split; [apply ex_spider_wf|]. split; [vm_compute; done|]. split; [done|].
  split; [apply ex_spider_wf|]. vm_compute. reflexivity.
Qed.
(** C49: for the odd distance 3 two vertices at distance 2 share a class. *)
Theorem C49_odd_distance_refuted : ∃ (L : lgraph) T l X, lgraph_wf L ∧ (∀ x, x ∈ T → contains L x = true) ∧
  scattered_colouring 10 L 3 T = Ok l ∧ X ∈ l ∧ 0%N ∈ X ∧ 2%N ∈ X ∧ nsteps (adj L) 2 0%N 2%N.
Proof.
  destruct (ex_lin_spec [(0, 1); (1, 2)]%N [0; 1; 2]%N) as (_ & Hwf & _ & Hc & Ha); [vm_compute; done|].
  set (L := ex_lin [(0, 1); (1, 2)]%N [0; 1; 2]%N) in *.
  assert (match scattered_colouring 10 L 3 [0; 2]%N with
    | Ok [X] => bool_decide (0%N ∈ X) && bool_decide (2%N ∈ X) | _ => false end = true) as Hcomp by (vm_compute; done).
  destruct (scattered_colouring 10 L 3 [0; 2]%N) as [[|X [|]]| |] eqn:E; [discriminate Hcomp| |discriminate Hcomp..].
  apply andb_true_iff in Hcomp as [H1%bool_decide_eq_true H2%bool_decide_eq_true].
  exists L, [0; 2]%N, [X], X. split_and!; [exact Hwf| |exact E|left|exact H1|exact H2|].
  - intros x Hx. apply Hc. clear -Hx. set_solver.
  - eapply nsteps_l; [apply Ha; left; left|]. apply nsteps_once. apply Ha. left. right. left.
Qed.
(** C49: a target that is not a vertex makes the loop run forever. *)
Definition ex_edge : lgraph := ex_lin [(0, 1)]%N [0; 1]%N.
Theorem C49_non_vertex_refuted : ∃ L : lgraph, lgraph_wf L ∧ ∀ fuel, scattered_colouring fuel L 2 [5%N] = Diverge.
Proof.
  destruct (ex_lin_spec [(0, 1)]%N [0; 1]%N) as (_ & Hwf & _ & _); [vm_compute; done|]. exists ex_edge. split; [exact Hwf|].
  intros fuel. unfold scattered_colouring.
  replace (g_is_empty ex_edge || bool_decide ((collect_set [5%N] : gset N) = ∅)) with false by (vm_compute; reflexivity).
  destruct (wreach_sets ex_edge 2) as [W| |] eqn:EW; [|vm_compute in EW; done..]. cbn [mbind res_bind].
  replace (N.of_nat 2 * N.of_nat 2 <? u32_mod)%N with true by (vm_compute; reflexivity). cbn [assert_res mbind res_bind].
  destruct (ds_order ex_edge) as [order| |] eqn:EO; [|vm_compute in EO; done..]. cbn [mbind res_bind].
  assert (∀ fuel, sc_rounds fuel W (2 / 2) (2 * 2) order (collect_set [5%N]) ∅ = Diverge) as ->; [|done].
  clear fuel. induction fuel as [|fuel IH]; [done|]. cbn [sc_rounds].
  replace (bool_decide ((collect_set [5%N] : gset N) = ∅)) with false by (vm_compute; reflexivity).
  assert (W = match wreach_sets ex_edge 2 with Ok W => W | _ => ∅ end) as HW by (by rewrite EW).
  assert (order = match ds_order ex_edge with Ok o => o | _ => [] end) as HO by (by rewrite EO).
  clear EW EO. 
  assert (∃ st, ds_loop W (collect_set [5%N]) (2 / 2) (2 * 2) order = Ok st ∧ ds_scat st = ∅) as (st & -> & Hs).
  { rewrite HW, HO. eexists. split; vm_compute; reflexivity. }
  cbn [mbind res_bind]. rewrite Hs.
  assert (∃ h, ds_conflict false W ∅ (2 / 2) = Ok h ∧ ds_colours h = Ok ∅) as (h & -> & Hh).
  { rewrite HW. eexists. split; vm_compute; reflexivity. }
  cbn [mbind res_bind]. rewrite Hh. cbn [mbind res_bind].
  assert (vc_disjoint_extend ty_u32 ∅ ∅ = Ok (∅ : gmap N N)) as -> by (vm_compute; reflexivity). cbn [mbind res_bind].
  replace (size (∅ : gmap N N) =? size (∅ : gset N)) with true by (vm_compute; reflexivity). cbn [assert_res mbind res_bind].
  replace (filter (λ u, (∅ : gmap N N) !! u = None) (collect_set [5%N] : gset N)) with (collect_set [5%N] : gset N) by (vm_compute; reflexivity).
  exact IH.
Qed.

(** ** Concrete cases *)
(** The cycle of length 8 with the chord 0-4. *)
Definition ex_c8_edges : list (N * N) := [(0, 1); (1, 2); (2, 3); (3, 4); (4, 5); (5, 6); (6, 7); (7, 0); (0, 4)]%N.
Definition ex_c8 : lgraph := ex_lin ex_c8_edges [4; 2; 0; 6; 1; 3; 5; 7]%N.
Example ex_c8_wf : lgraph_wf ex_c8 ∧ contains ex_c8 7 = true.
Proof. split; [|vm_compute; done]. apply (ex_lin_spec ex_c8_edges [4; 2; 0; 6; 1; 3; 5; 7]%N). vm_compute. done. Qed.
Example ex_C46 : radius_ok 1 ∧ radius_ok 100 ∧
  (r ← domset ex_c8 1 false; Ok (elements r.1.1, map (λ v, r.1.2 !! v) [0; 1; 2; 3; 4; 5; 6; 7]%N)) =
    Ok ([1; 3; 7; 5]%N, [Some 1; Some 0; Some 1; Some 0; Some 1; Some 0; Some 1; Some 0]) ∧
  (r ← domset_with_target ex_c8 1 false [2; 6; 9]%N; Ok (elements r.1.1)) = Ok [2; 6]%N.
Proof. vm_compute. done. Qed.
Example ex_C48 : match domset_with_target ex_c8 1 true [1; 3; 5; 7; 2]%N with
    | Ok (_, _, Some c) => map_to_list c | _ => [] end = [(1, 2); (3, 1); (7, 1); (5, 0)]%N ∧
  size (list_to_set [1; 3; 5; 7; 2]%N : gset N) ≤ 130.
Proof. split; [vm_compute; done|]. apply (bool_decide_unpack _). vm_compute. exact I. Qed.
Example ex_C49 : (l ← scattered_colouring 9 ex_c8 4 (vertices ex_c8); Ok (map elements l)) =
    Ok [[5]; [1]; [3]; [4]; [7]; [0]; [2; 6]]%N ∧
  (∀ x, x ∈ vertices ex_c8 → contains ex_c8 x = true) ∧ size (list_to_set (vertices ex_c8) : gset N) ≤ 130.
Proof.
  split; [vm_compute; done|]. split.
  - assert (Hg : ∀ L : lgraph, lgraph_wf L → ∀ x, x ∈ vertices L → contains L x = true).
    { intros L HL x Hx. by apply (wf_vertices _ (lwf_graph _ HL)). }
    exact (Hg ex_c8 (proj1 ex_c8_wf)).
  - apply Nat.leb_le. vm_compute. reflexivity.
Qed.
Example ex_C50 : (W ← wreach_sets ex_c8 3; a ← small_distance W 3 2 6; b ← small_distance W 3 1 3; c ← small_distance W 1 1 3;
    d ← small_distance_sets W 3 {[1; 2]}%N {[5; 6]}%N; Ok (a, b, c, d)) = Ok (None, Some 2, None, Some 3).
Proof. vm_compute. done. Qed.
(** Radii and distances whose square overflows exist. *)
(** A path on 140 vertices, all of them targets, at distance 2. *)
Definition ex_path140_edges : list (N * N) := (λ i, (i, i + 1)%N) <$> nrange 0 139.
Definition ex_path140 : lgraph := ex_lin ex_path140_edges (nrange 0 140).
Example ex_C46_uncrowded : lgraph_wf ex_path140 ∧ uncrowded ex_path140 2 (nrange 0 140) ∧
  size (list_to_set (nrange 0 140) : gset N) = 140 ∧ ∀ x, x ∈ nrange 0 140 → contains ex_path140 x = true.
Proof.
  destruct (ex_lin_spec ex_path140_edges (nrange 0 140)) as (_ & Hwf & _ & Hc & Ha); [vm_compute; exact eq_refl|].
  split; [exact Hwf|]. split; [|split; [vm_compute; exact eq_refl|intros x; apply Hc]].
  assert (∀ u v, adj ex_path140 u v → v = u + 1 ∨ u = v + 1)%N as Hadj.
  { assert (Forall (λ e : N * N, e.2 = e.1 + 1)%N ex_path140_edges) as HF by (apply (bool_decide_unpack _); vm_compute; exact I).
    rewrite Forall_forall in HF. intros u v Huv. apply Ha in Huv as [Huv|Huv]; apply HF in Huv; cbn in Huv; auto. }
  intros S Hne _. apply set_choose_L in Hne as [x Hx]. exists x. split; [exact Hx|]. intros l Hnd Hl.
  transitivity (length [x + 1; x + 2; x - 1; x - 2]%N); [|cbn; lia]. apply submseteq_length, NoDup_submseteq; [exact Hnd|].
  intros y Hy. destruct (Hl y Hy) as (_ & Hyx & n & Hn & Hs).
  assert (y = x + 1 ∨ y = x + 2 ∨ y = x - 1 ∨ y = x - 2)%N as Hc4.
  { inversion Hs as [|m ? z ? Hxz Hs2]; subst; [done|]. apply Hadj in Hxz. inversion Hs2 as [|m2 ? z2 ? Hzz Hs3]; subst; [lia|].
    apply Hadj in Hzz. inversion Hs3; subst; lia. }
  rewrite !elem_of_cons. tauto.
Qed.
Example ex_C49_uncrowded : match scattered_colouring 141 ex_path140 2 (nrange 0 140) with
  | Ok l => length l = 3
  | _ => False
  end.
Proof. vm_compute. exact eq_refl. Qed.
Example ex_large : ∃ r d : nat, (32768 <= N.of_nat r)%N ∧ (u32_mod <= N.of_nat d * N.of_nat d)%N ∧ (N.of_nat d + 1 < u32_mod)%N.
Proof. exists (N.to_nat 32768), (N.to_nat 65536). rewrite !N2Nat.id. repeat split; vm_compute; congruence. Qed.

Print Assumptions C45_slow_orders.
Print Assumptions C45_by_degeneracy.
Print Assumptions C46_domset_with_target.
Print Assumptions C46_domset.
Print Assumptions C46_with_witness_partial.
Print Assumptions C46_uncrowded.
Print Assumptions C46_large_radius_refuted.
Print Assumptions C47_upper_bounds_partial.
Print Assumptions C47_small_values.
Print Assumptions C48_witness.
Print Assumptions C48_witness_not_empty.
Print Assumptions C49_scattered_colouring_partial.
Print Assumptions C49_uncrowded.
Print Assumptions C49_even_distance.
Print Assumptions C49_large_distance_refuted.
Print Assumptions C50_small_distance.
Print Assumptions C50_small_distance_sets.
Print Assumptions C45_by_degeneracy_refuted.
Print Assumptions C47_refuted.
Print Assumptions C47_non_target_refuted.
Print Assumptions C46_witness_refuted.
Print Assumptions C49_panic_refuted.
Print Assumptions C49_odd_distance_refuted.
Print Assumptions C49_non_vertex_refuted.
