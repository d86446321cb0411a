(** The values computed by the algorithms on general graphs do not depend on the data structure
    nor on the iteration order of hash sets: core numbers. *)
From Verif Require Import Base Spec M_Graph M_Iterators M_EditGraph M_Algorithms S_Graph
  P_EditGraph P_EditGraph2 P_Graph P_Iterators P_Degeneracy.

(** The first member of a set in a list. *)
Lemma first_in (H : gset N) (l : list N) i v : l !! i = Some v → v ∈ H →
  ∃ j w, j ≤ i ∧ l !! j = Some w ∧ w ∈ H ∧ ∀ x, x ∈ take j l → x ∉ H.
Proof.
  revert v. induction (lt_wf i) as [i _ IH]; intros v Hi HvH.
  destruct (decide (Forall (λ x, x ∉ H) (take i l))) as [Hall|Hn].
  - exists i, v. split_and!; [lia|done|done|]. by apply Forall_forall.
  - apply not_Forall_Exists in Hn; [|apply _]. apply Exists_exists in Hn as (x & (j & Hj & Hjl)%elem_of_take & HxH).
    apply dec_stable in HxH. destruct (IH j Hjl x Hj HxH) as (j' & w & ? & ? & ? & ?).
    exists j', w. split_and!; [lia|done..].
Qed.

(** [d] neighbours of [w] outside [o1] are outside [o2] too. *)
Lemma rdeg_mono (G1 G2 : graph) (o1 o2 : list N) w : graph_wf G1 → graph_wf G2 → vtx G1 w → vtx G2 w →
  (∀ u, adj G1 w u → adj G2 w u) → (∀ u, vtx G1 u → u ∈ o2 → u ∈ o1) → rdeg G1 o1 w ≤ rdeg G2 o2 w.
Proof.
  intros Hw1 Hw2 Hv1 Hv2 Ha Ho. destruct (nbrs_spec G1 w Hw1 Hv1) as (_ & Hnd1 & Hn1 & _).
  destruct (nbrs_spec G2 w Hw2 Hv2) as (_ & Hnd2 & Hn2 & _).
  unfold rdeg. apply submseteq_length, NoDup_submseteq; [by apply NoDup_filter|]. intros u.
  rewrite !elem_of_list_filter, Hn1, Hn2. intros [Hu Hau]. split; [|by apply Ha].
  intros Hu2. apply Hu, Ho; [|done]. eapply (wf_adj_vtx _ Hw1). by apply (wf_adj_sym _ Hw1).
Qed.

Lemma core_le (G1 G2 : graph) s1 s2 v c1 c2 : graph_wf G1 → graph_wf G2 →
  (∀ u, vtx G1 u → vtx G2 u) → (∀ u w, adj G1 u w → adj G2 u w) →
  dgn_inv G1 s1 → (∀ u, u ∈ dgn_order s1 ↔ vtx G1 u) → dgn_inv G2 s2 → (∀ u, u ∈ dgn_order s2 ↔ vtx G2 u) →
  dgn_core s1 !! v = Some c1 → dgn_core s2 !! v = Some c2 → c1 ≤ c2.
Proof.
  intros Hw1 Hw2 Hv Ha HI1 Ho1 HI2 Ho2 Hc1 Hc2.
  assert (v ∈ dgn_order s1) as Hv1 by (apply (gi_core _ _ HI1); eauto).
  assert (v ∈ dgn_order s2) as Hv2 by (apply (gi_core _ _ HI2); eauto).
  apply elem_of_list_lookup in Hv1 as [i Hi]. apply elem_of_list_lookup in Hv2 as [k Hk].
  destruct (gi_lower _ _ HI1 i v c1 Hi Hc1) as (i0 & Hi0 & Hlow).
  set (H := list_to_set (dgn_order s1) ∖ list_to_set (take i0 (dgn_order s1)) : gset N).
  assert (∀ x, x ∈ H ↔ vtx G1 x ∧ x ∉ take i0 (dgn_order s1)) as HH.
  { intros x. unfold H. rewrite elem_of_difference, !elem_of_list_to_set. by rewrite Ho1. }
  destruct (first_in H (dgn_order s2) k v Hk) as (j & w & Hjk & Hj & HwH & Hfirst).
  { apply HH. split; [apply Ho1; by eapply elem_of_list_lookup_2|]. intros (j & Hj & Hjl)%elem_of_take.
    pose proof (NoDup_lookup _ _ _ _ (gi_nodup _ _ HI1) Hi Hj). lia. }
  apply HH in HwH as [Hwv Hwn]. specialize (Hlow w Hwv Hwn).
  assert (is_Some (dgn_core s2 !! w)) as [cw Hcw] by (apply (gi_core _ _ HI2); by eapply elem_of_list_lookup_2).
  pose proof (gi_mono _ _ HI2 j k w v cw c2 Hj Hk Hcw Hc2 Hjk) as Hmono.
  pose proof (gi_upper _ _ HI2 j w cw Hj Hcw) as Hup.
  assert (rdeg G1 (take i0 (dgn_order s1)) w ≤ rdeg G2 (take j (dgn_order s2)) w) as Hr.
  { apply rdeg_mono; [done|done|done|by apply Hv|by apply Ha|]. intros u Hu Hu2.
    destruct (decide (u ∈ take i0 (dgn_order s1))); [done|]. destruct (Hfirst u Hu2). by apply HH. }
  apply calc_index_mono in Hr. lia.
Qed.

Lemma dgn_lower_mono a b : a ≤ b → dgn_lower a ≤ dgn_lower b.
Proof.
  intros Hab%calc_index_mono. unfold dgn_lower. cbv zeta. destruct (calc_index a <=? 129) eqn:Ea, (calc_index b <=? 129) eqn:Eb.
  - done.
  - apply Nat.leb_le in Ea. lia.
  - apply Nat.leb_gt in Ea. apply Nat.leb_le in Eb. lia.
  - assert (2 ^ (calc_index a - 129 - 1) ≤ 2 ^ (calc_index b - 129 - 1)) by (apply Nat.pow_le_mono_r; lia). lia.
Qed.

(** Core numbers and their maximum are monotone under taking supergraphs. *)
Lemma degeneracy_le (H1 H2 : HashIter) (G1 G2 : graph) lo1 up1 o1 c1 lo2 up2 o2 c2 : graph_wf G1 → graph_wf G2 → loopless G1 → loopless G2 →
  (∀ u, vtx G1 u → vtx G2 u) → (∀ u w, adj G1 u w → adj G2 u w) →
  @degeneracy H1 G1 = Ok (lo1, up1, o1, c1) → @degeneracy H2 G2 = Ok (lo2, up2, o2, c2) →
  lo1 ≤ lo2 ∧ up1 ≤ up2 ∧ ∀ v a, c1 !! v = Some a → ∃ b, c2 !! v = Some b ∧ a ≤ b.
Proof.
  intros Hw1 Hw2 Hl1 Hl2 Hv Ha Hd1 Hd2.
  destruct (@degeneracy_inv H1 G1 Hw1 Hl1) as (s1 & Hs1 & HI1 & Ho1). rewrite Hd1 in Hs1. injection Hs1 as -> -> -> ->.
  destruct (@degeneracy_inv H2 G2 Hw2 Hl2) as (s2 & Hs2 & HI2 & Ho2). rewrite Hd2 in Hs2. injection Hs2 as -> -> -> ->.
  assert (∀ v a, dgn_core s1 !! v = Some a → ∃ b, dgn_core s2 !! v = Some b ∧ a ≤ b) as Hc.
  { intros v a Hva. assert (is_Some (dgn_core s2 !! v)) as [b Hb].
    { apply (gi_core _ _ HI2), Ho2, Hv, Ho1, (gi_core _ _ HI1). eauto. }
    exists b. split; [done|]. by eapply (core_le G1 G2 s1 s2 v). }
  assert (dgn_num s1 ≤ dgn_num s2) as Hn.
  { destruct (gi_num_last _ _ HI1) as [[_ ->]|[v Hvn]]; [lia|]. destruct (Hc v _ Hvn) as (b & Hb & Hle).
    etrans; [exact Hle|]. by eapply (gi_num _ _ HI2). }
  split_and!; [by apply dgn_lower_mono|done|done].
Qed.
