(** Counting facts about shattered sets; no code is modelled here. *)
From Verif Require Import Base Spec M_Graph S_Graph T_Algorithms.

(** Each subset [Y] of [X] is cut out by at least 2^j vertices satisfying [Q]. *)
Definition shat (Q : N → Prop) (A : N → N → Prop) (X : list N) (j : nat) : Prop :=
  ∀ Y : gset N, (∀ y, y ∈ Y → y ∈ X) →
    ∃ E : gset N, (2 ^ N.of_nat j <= N.of_nat (size E))%N ∧ ∀ v, v ∈ E → Q v ∧ ∀ u, u ∈ X → A u v ↔ u ∈ Y.

Lemma shat_cons Q A x X j : x ∉ X → shat Q A (x :: X) j → shat Q A X (S j).
Proof.
  intros Hx Hs Y HY. destruct (Hs Y) as (E1 & H1 & HE1); [set_solver|]. destruct (Hs ({[x]} ∪ Y)) as (E2 & H2 & HE2); [set_solver|].
  assert (x ∉ Y) as HxY by set_solver.
  assert (E1 ## E2) as Hdis.
  { intros v Hv1%HE1 Hv2%HE2. destruct Hv1 as [_ A1], Hv2 as [_ A2]. apply HxY, A1; [left|]. apply A2; [left|set_solver]. }
  exists (E1 ∪ E2). split.
  - rewrite size_union, Nat2N.inj_add, Nat2N.inj_succ, N.pow_succ_r' by exact Hdis. lia.
  - intros v [Hv|Hv]%elem_of_union; [apply HE1 in Hv as [HQ HA]|apply HE2 in Hv as [HQ HA]]; (split; [exact HQ|]); intros u Hu.
    + rewrite (HA u) by (by right). done.
    + rewrite (HA u) by (by right). assert (u ≠ x) by (intros ->; done). set_solver.
Qed.
Lemma shat_app Q A Z X j : NoDup (Z ++ X) → shat Q A (Z ++ X) j → shat Q A X (j + length Z).
Proof.
  revert j. induction Z as [|z Z IH]; intros j Hnd Hs; cbn in *; [by rewrite Nat.add_0_r|].
  apply NoDup_cons in Hnd as [Hz Hnd]. rewrite <- Nat.add_succ_comm. apply IH; [done|]. by eapply shat_cons.
Qed.
Lemma shat_perm Q A X X' j : X ≡ₚ X' → shat Q A X j → shat Q A X' j.
Proof.
  intros Hp Hs Y HY. destruct (Hs Y) as (E & HE & HA); [intros y Hy; rewrite Hp; auto|]. exists E. split; [done|].
  intros v Hv. destruct (HA v Hv) as [HQ Hu]. split; [done|]. intros u Hux. apply Hu. by rewrite Hp.
Qed.
Lemma shat_sub Q A X X' j : NoDup X → NoDup X' → (∀ x, x ∈ X' → x ∈ X) → shat Q A X j → shat Q A X' (j + (length X - length X')).
Proof.
  intros Hnd Hnd' Hsub Hs. destruct (submseteq_Permutation X' X) as [Z HZ]; [by apply NoDup_submseteq|].
  assert (X ≡ₚ Z ++ X') as HZ' by (by rewrite HZ, (comm (++))).
  assert (length X - length X' = length Z) as -> by (rewrite HZ', app_length; lia).
  apply shat_app; [by rewrite <- HZ'|]. by eapply shat_perm.
Qed.
Lemma shat_le Q A X j j' : j' ≤ j → shat Q A X j → shat Q A X j'.
Proof.
  intros Hle Hs Y HY. destruct (Hs Y HY) as (E & HE & HA). exists E. split; [|done].
  etrans; [|exact HE]. apply N.pow_le_mono_r; lia.
Qed.
Lemma shat_weaken (Q Q' : N → Prop) A X j : (∀ v, Q v → Q' v) → shat Q A X j → shat Q' A X j.
Proof. intros HQ Hs Y HY. destruct (Hs Y HY) as (E & HE & HA). exists E. split; [done|]. intros v Hv. destruct (HA v Hv). auto. Qed.
Lemma shat_one Q A X j Y : shat Q A X j → (∀ y, y ∈ Y → y ∈ X) → ∃ v, Q v ∧ ∀ u, u ∈ X → A u v ↔ u ∈ (Y : gset N).
Proof.
  intros Hs HY. destruct (Hs Y HY) as (E & HE & HA). destruct (set_choose_or_empty E) as [[v Hv]|He]; [exists v; auto|].
  rewrite (leibniz_equiv _ _ He), size_empty in HE. assert (2 ^ N.of_nat j ≠ 0)%N by (apply N.pow_nonzero; lia). lia.
Qed.

(** For every [z] of [Z] a vertex that sees all of [X] but [z]. *)
Lemma shat_choose Q A X j Z : shat Q A X j → NoDup Z → (∀ z, z ∈ Z → z ∈ X) →
  ∃ l, NoDup l ∧ length l = length Z ∧ ∀ v, v ∈ l → Q v ∧ ∃ z, z ∈ Z ∧ ∀ u, u ∈ X → A u v ↔ u ≠ z.
Proof.
  intros Hs. induction Z as [|z Z IH]; intros Hnd HZ; [exists []; split_and!; [constructor|done|set_solver]|].
  apply NoDup_cons in Hnd as [Hz Hnd]. destruct IH as (l & Hl & Hlen & Hv); [done|intros y Hy; apply HZ; by right|].
  destruct (shat_one Q A X j (list_to_set X ∖ {[z]}) Hs) as (v & HQ & HA); [set_solver|].
  assert (∀ u, u ∈ X → A u v ↔ u ≠ z) as HA'. { intros u Hu. rewrite (HA u Hu). set_solver. }
  exists (v :: l). split_and!; [|cbn; lia|].
  - apply NoDup_cons. split; [|done]. intros Hvl. destruct (Hv v Hvl) as (_ & z' & Hz' & Hu).
    assert (z ∈ X) as HzX by (apply HZ; left). assert (z ≠ z') as Hne by (intros ->; done).
    apply (Hu z HzX) in Hne. by apply (HA' z HzX) in Hne.
  - intros w [->|Hw]%elem_of_cons; [split; [done|]; exists z; split; [left|done]|].
    destruct (Hv w Hw) as (HQw & z' & Hz' & Hu). split; [done|]. exists z'. split; [by right|done].
Qed.

Lemma length_filter_ne (X : list N) z : NoDup X → length X - 1 ≤ length (filter (λ u, u ≠ z) X).
Proof.
  intros Hnd. assert (X ⊆+ z :: filter (λ u, u ≠ z) X) as Hs.
  { apply NoDup_submseteq; [done|]. intros u Hu. destruct (decide (u = z)) as [->|Hne]; [left|right]. by apply elem_of_list_filter. }
  apply submseteq_length in Hs. cbn in Hs. lia.
Qed.

(** The subgraph on [X] and the vertices that see all of [X] but one has minimum degree |X| - 1. *)
Lemma shat_core G X j (Q : N → Prop) : graph_wf G → NoDup X → (∀ x, x ∈ X → vtx G x) → (∀ v, Q v → vtx G v) →
  shat Q (λ u v, adjacent G u v = true) X j → ∃ H, H ≠ ∅ ∧ (∀ x, x ∈ X → x ∈ H) ∧ min_degree G H (length X - 1).
Proof.
  intros Hwf Hnd HX HQ Hs.
  set (W := (filter (λ v, length X - 1 ≤ length (filter (λ u, adjacent G u v = true) X)) (list_to_set (vertices G)) : gset N)).
  exists (list_to_set X ∪ W). split_and!.
  - destruct (shat_one Q _ X j (list_to_set X) Hs) as (v & Hv & HA); [set_solver|].
    assert (v ∈ W) as HvW; [|set_solver]. unfold W. rewrite elem_of_filter, elem_of_list_to_set, (wf_vertices _ Hwf). split; [|auto].
    assert (X ⊆+ filter (λ u, adjacent G u v = true) X) as Hsub.
    { apply NoDup_submseteq; [done|]. intros u Hu. apply elem_of_list_filter. split; [|done]. apply HA; set_solver. }
    apply submseteq_length in Hsub. lia.
  - set_solver.
  - intros v [Hv|Hv]%elem_of_union.
    + apply elem_of_list_to_set in Hv. split; [auto|].
      destruct (shat_choose Q _ X j (filter (λ u, u ≠ v) X) Hs) as (l & Hl & Hlen & Hlv); [by apply NoDup_filter|intros z Hz; by apply elem_of_list_filter in Hz as [_ ?]|].
      exists l. split_and!; [done|rewrite Hlen; by apply length_filter_ne|]. intros w Hw. destruct (Hlv w Hw) as (HQw & z & Hz & Hu).
      apply elem_of_list_filter in Hz as [Hzv HzX]. split.
      * apply elem_of_union_r. unfold W. rewrite elem_of_filter, elem_of_list_to_set, (wf_vertices _ Hwf). split; [|auto].
        etrans; [by apply (length_filter_ne X z)|]. apply submseteq_length, NoDup_submseteq; [by apply NoDup_filter|].
        intros u [Hne HuX]%elem_of_list_filter. apply elem_of_list_filter. split; [by apply Hu|done].
      * apply Hu; [done|congruence].
    + unfold W in Hv. rewrite elem_of_filter, elem_of_list_to_set, (wf_vertices _ Hwf) in Hv. destruct Hv as [Hlen Hv]. split; [done|].
      exists (filter (λ u, adjacent G u v = true) X). split_and!; [by apply NoDup_filter|done|].
      intros u [Hu HuX]%elem_of_list_filter. split; [set_solver|by apply (wf_adj_sym _ Hwf)].
Qed.

(** The last vertex of such a subgraph in any order has that many left neighbours. *)
Lemma min_degree_left G H k order : graph_wf G → loopless G → H ≠ ∅ → min_degree G H k → NoDup order → (∀ v, vtx G v → v ∈ order) →
  ∃ v l, v ∈ order ∧ left_of G order v l ∧ k ≤ length l.
Proof.
  intros Hwf Hl Hne Hm Hnd Ho.
  assert (∃ i v, order !! i = Some v ∧ v ∈ H ∧ ∀ j w, order !! j = Some w → w ∈ H → j ≤ i) as (i & v & Hi & Hv & Hmax).
  { assert (∃ v, v ∈ H) as [v0 Hv0] by (apply set_choose_L in Hne; done).
    assert (v0 ∈ order) as [i0 Hi0]%elem_of_list_lookup by (apply Ho, (Hm v0 Hv0)).
    clear -Hv0 Hi0. remember (length order - i0) as n eqn:En. revert i0 v0 Hv0 Hi0 En. induction n as [n IH] using lt_wf_ind. intros i0 v0 Hv0 Hi0 En.
    destruct (decide (Exists (λ j, default false ((λ w, bool_decide (w ∈ H)) <$> order !! j) = true) (seq (S i0) (length order - S i0)))) as [Hex|Hno].
    - apply Exists_exists in Hex as (j & Hj%elem_of_seq & Hw). destruct (order !! j) as [w|] eqn:E; [|done].
      cbn in Hw. apply bool_decide_eq_true in Hw. pose proof (lookup_lt_Some _ _ _ E).
      eapply (IH (length order - j)); [lia|exact Hw|exact E|done].
    - exists i0, v0. split_and!; [done|done|]. intros j w Hw HwH. destruct (decide (j ≤ i0)); [done|]. exfalso. apply Hno, Exists_exists.
      exists j. pose proof (lookup_lt_Some _ _ _ Hw). split; [apply elem_of_seq; lia|]. rewrite Hw. cbn. by apply bool_decide_eq_true. }
  destruct (Hm v Hv) as (_ & l & Hndl & Hlen & Hlu). exists v, l. split_and!; [by eapply elem_of_list_lookup_2| |done].
  split; [done|]. intros u Hu. destruct (Hlu u Hu) as [HuH Ha]. split; [done|].
  assert (u ∈ order) as [j Hj]%elem_of_list_lookup by (apply Ho, (Hm u HuH)).
  exists j, i. split_and!; [done|done|]. pose proof (Hmax j u Hj HuH). assert (j ≠ i) by (intros ->; simplify_eq; by apply (Hl v)). lia.
Qed.
