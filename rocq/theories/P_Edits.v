(** What adding one edge, or losing one vertex, does to core numbers, components and bipartitions; no code is modelled here. *)
From Verif Require Import Base Spec M_Graph M_Iterators M_EditGraph M_Algorithms S_Graph
  P_EditGraph P_EditGraph2 P_Graph P_Iterators P_Degeneracy P_Determin2 P_Bipartite P_Compose P_Iso T_Algorithms.

Lemma calc_index_add n k : calc_index (n + k) ≤ calc_index n + k.
Proof.
  induction k as [|k IH]; [by rewrite !Nat.add_0_r|]. replace (n + S k) with (S (n + k)) by lia.
  enough (calc_index (S (n + k)) ≤ S (calc_index (n + k))) by lia. generalize (n + k). clear. intros m. unfold calc_index.
  destruct (decide (m < 128)) as [Hm|Hm].
  - assert (Nat.log2_up (S m + 1 - 128) = 0) as -> by (apply Nat.log2_up_eqn0; lia). lia.
  - replace (S m + 1 - 128) with (S (m + 1 - 128)) by lia. pose proof (Nat.log2_up_succ_le (m + 1 - 128)). lia.
Qed.

(** [G2] lacks at most one vertex of [G1], and at most [k] of the edges at each vertex it has. *)
Definition near (G1 G2 : graph) (k : nat) (ex : N → list N) : Prop :=
  (∀ a b, vtx G1 a → vtx G1 b → ¬ vtx G2 a → ¬ vtx G2 b → a = b) ∧
  ∀ a, vtx G2 a → length (ex a) ≤ k ∧ ∀ b, adj G1 a b → adj G2 a b ∨ b ∈ ex a.

Lemma core_near (G1 G2 : graph) k ex s1 s2 v c1 : graph_wf G1 → graph_wf G2 → loopless G1 → near G1 G2 k ex →
  (∀ a, vtx G2 a → vtx G1 a) →
  dgn_inv G1 s1 → (∀ u, u ∈ dgn_order s1 ↔ vtx G1 u) → dgn_inv G2 s2 → (∀ u, u ∈ dgn_order s2 ↔ vtx G2 u) →
  dgn_core s1 !! v = Some c1 → (∀ c2, dgn_core s2 !! v = Some c2 → c1 ≤ c2 + k) ∧ c1 ≤ dgn_num s2 + k.
Proof.
  intros Hw1 Hw2 Hl1 [Hone Hex] Hsub HI1 Ho1 HI2 Ho2 Hc1.
  assert (v ∈ dgn_order s1) as Hv1 by (apply (gi_core _ _ HI1); eauto). pose proof (proj1 (Ho1 v) Hv1) as Hvv.
  apply elem_of_list_lookup in Hv1 as [i Hi]. destruct (gi_lower _ _ HI1 i v c1 Hi Hc1) as (i0 & Hi0 & Hlow).
  set (H := list_to_set (filter (λ x, x ∉ take i0 (dgn_order s1)) (dgn_order s1)) : gset N).
  assert (∀ x, x ∈ H ↔ vtx G1 x ∧ x ∉ take i0 (dgn_order s1)) as HH.
  { intros x. unfold H. rewrite elem_of_list_to_set, elem_of_list_filter, Ho1. tauto. }
  assert (v ∈ H) as HvH.
  { apply HH. split; [done|]. intros (j & Hj & Hjl)%elem_of_take. pose proof (NoDup_lookup _ _ _ _ (gi_nodup _ _ HI1) Hi Hj). lia. }
  assert (∀ w cw, w ∈ H → dgn_core s2 !! w = Some cw → c1 ≤ cw + k) as Hmain.
  { intros w cw Hw Hcw. assert (w ∈ dgn_order s2) as [n Hn]%elem_of_list_lookup by (apply (gi_core _ _ HI2); eauto).
    destruct (first_in H (dgn_order s2) n w Hn Hw) as (j & y & Hjn & Hj & HyH & Hfirst).
    assert (vtx G2 y) as Hy2 by (apply Ho2; by eapply elem_of_list_lookup_2). pose proof HyH as [Hy1 Hyn]%HH. specialize (Hlow y Hy1 Hyn).
    assert (is_Some (dgn_core s2 !! y)) as [cy Hcy] by (by apply (gi_core _ _ HI2), Ho2).
    pose proof (gi_mono _ _ HI2 j n y w cy cw Hj Hn Hcy Hcw Hjn) as Hmono. pose proof (gi_upper _ _ HI2 j y cy Hj Hcy) as Hup.
    destruct (Hex y Hy2) as [Hlen Hadj]. destruct (nbrs_spec G1 y Hw1 Hy1) as (_ & Hnd1 & Hn1 & _). destruct (nbrs_spec G2 y Hw2 Hy2) as (_ & Hnd2 & Hn2 & _).
    assert (rdeg G1 (take i0 (dgn_order s1)) y ≤ rdeg G2 (take j (dgn_order s2)) y + k) as Hr.
    { unfold rdeg. etransitivity; [|apply Nat.add_le_mono_l, Hlen]. rewrite <- app_length. apply submseteq_length, NoDup_submseteq; [by apply NoDup_filter|].
      intros b [Hb1 Hb2]%elem_of_list_filter. apply Hn1 in Hb2. apply elem_of_app. destruct (Hadj b Hb2) as [Hb3|Hb3]; [left|by right].
      apply elem_of_list_filter. split; [|by apply Hn2]. intros Hb4. apply (Hfirst b Hb4), HH. split; [|done].
      by apply (wf_adj_vtx _ Hw1 b y), (wf_adj_sym _ Hw1). }
    pose proof (calc_index_mono _ _ Hr) as Hr'. pose proof (calc_index_add (rdeg G2 (take j (dgn_order s2)) y) k). lia. }
  split; [intros c2 Hc2; by apply (Hmain v)|].
  destruct (decide (Exists (λ w, w ∈ dgn_order s2) (elements H))) as [Hyes|Hno].
  - apply Exists_exists in Hyes as (w & Hw%elem_of_elements & Hwo). apply (gi_core _ _ HI2) in Hwo as [cw Hcw].
    pose proof (Hmain w cw Hw Hcw). pose proof (gi_num _ _ HI2 w cw Hcw). lia.
  - assert (∀ w, w ∈ H → ¬ vtx G2 w) as Hout.
    { intros w Hw Hwo. apply Hno, Exists_exists. exists w. split; [by apply elem_of_elements|by apply Ho2]. }
    assert (c1 ≤ calc_index 0) as Hz; [|change (calc_index 0) with 0 in Hz; lia].
    replace 0 with (rdeg G1 (take i0 (dgn_order s1)) v); [apply HH in HvH as [_ HvH]; by apply Hlow|].
    unfold rdeg. apply length_zero_iff_nil. destruct (filter _ (nbrs G1 v)) as [|b l] eqn:E; [done|exfalso].
    assert (b ∈ filter (λ u, u ∉ take i0 (dgn_order s1)) (nbrs G1 v)) as Hb by (rewrite E; left). apply elem_of_list_filter in Hb as [Hb1 Hb2].
    destruct (nbrs_spec G1 v Hw1 Hvv) as (_ & _ & Hn1 & _). apply Hn1 in Hb2.
    assert (vtx G1 b) as Hbv by (by apply (wf_adj_vtx _ Hw1 b v), (wf_adj_sym _ Hw1)).
    assert (b = v) as ->; [|by apply (Hl1 v)]. apply Hone; [done|done| |by apply Hout]. apply Hout, HH. done.
Qed.

Lemma degeneracy_near (H1 H2 : HashIter) (G1 G2 : graph) k ex lo1 up1 o1 c1 lo2 up2 o2 c2 :
  graph_wf G1 → graph_wf G2 → loopless G1 → near G1 G2 k ex → (∀ a, vtx G2 a → vtx G1 a) → (∀ a b, adj G2 a b → adj G1 a b) →
  @degeneracy H1 G1 = Ok (lo1, up1, o1, c1) → @degeneracy H2 G2 = Ok (lo2, up2, o2, c2) →
  lo2 ≤ lo1 ∧ up2 ≤ up1 ∧ up1 ≤ up2 + k ∧
  ∀ v b, c2 !! v = Some b → ∃ a, c1 !! v = Some a ∧ b ≤ a ∧ a ≤ b + k.
Proof.
  intros Hw1 Hw2 Hl1 Hn Hsv Hsa Hd1 Hd2. assert (loopless G2) as Hl2 by (intros u Hu; by apply (Hl1 u), Hsa).
  destruct (degeneracy_embed H2 H1 (λ x, x) G2 G1 lo2 up2 o2 c2 lo1 up1 o1 c1 Hw2 Hw1 Hl2 Hl1) as (HA1 & HA2 & HA3); [by split_and!|done|done|].
  destruct (@degeneracy_inv H1 G1 Hw1 Hl1) as (s1 & Hs1 & HI1 & Ho1). rewrite Hd1 in Hs1. injection Hs1 as E1 E2 E3 E4.
  destruct (@degeneracy_inv H2 G2 Hw2 Hl2) as (s2 & Hs2 & HI2 & Ho2). rewrite Hd2 in Hs2. injection Hs2 as F1 F2 F3 F4.
  split; [done|]. split; [done|]. split.
  - rewrite E2, F2. destruct (gi_num_last _ _ HI1) as [[_ ->]|[v Hv]]; [lia|].
    apply (core_near G1 G2 k ex s1 s2 v _ Hw1 Hw2 Hl1 Hn Hsv HI1 Ho1 HI2 Ho2 Hv).
  - intros v b Hb. destruct (HA3 v b Hb) as (a & Ha & Hle). exists a. split_and!; [done|done|].
    rewrite E4 in Ha. rewrite F4 in Hb. by apply (core_near G1 G2 k ex s1 s2 v a Hw1 Hw2 Hl1 Hn Hsv HI1 Ho1 HI2 Ho2 Ha).
Qed.

(** ** One more edge *)
(** [G2] is [G1] with the edge [u v]. *)
Definition plus_edge (G1 G2 : graph) (u v : N) : Prop := vtx G1 u ∧ vtx G1 v ∧
  (∀ x, vtx G2 x ↔ vtx G1 x) ∧ ∀ x y, adj G2 x y ↔ adj G1 x y ∨ (x = u ∧ y = v) ∨ (x = v ∧ y = u).

Lemma plus_edge_near G1 G2 u v : u ≠ v → plus_edge G1 G2 u v → near G2 G1 1 (λ a, if decide (a = u) then [v] else if decide (a = v) then [u] else []).
Proof.
  intros Huv (_ & _ & HV & HA). split.
  - intros a b Ha _ Hna _. destruct Hna. by apply HV.
  - intros a Ha. split; [repeat case_decide; cbn; lia|]. intros b [?|[[-> ->]|[-> ->]]]%HA; [by left|right..].
    + rewrite decide_True by done. left.
    + rewrite decide_False, decide_True by done. left.
Qed.

Section tools.
Context {Hi : HashIter}.

Lemma rtc_sym' (G : graph) u v : graph_wf G → rtc (adj G) u v → rtc (adj G) v u.
Proof using Type.
  intros Hw Huv. induction Huv as [|u w v Huw _ IH]; [done|]. eapply rtc_r; [exact IH|]. by apply (wf_adj_sym _ Hw).
Qed.
Lemma plus_edge_rtc G1 G2 u v a b : graph_wf G1 → plus_edge G1 G2 u v →
  rtc (adj G2) a b ↔ rtc (adj G1) a b ∨ (rtc (adj G1) a u ∧ rtc (adj G1) v b) ∨ (rtc (adj G1) a v ∧ rtc (adj G1) u b).
Proof using Type.
  intros Hw (_ & _ & HV & HA).
  assert (∀ x y, rtc (adj G1) x y → rtc (adj G2) x y) as Hup by (intros x y; apply rtc_subrel; intros ? ? ?; apply HA; by left).
  split.
  - intros Hab. induction Hab as [a|a w b Haw _ IH]; [by left|]. apply HA in Haw as [Haw|[[-> ->]|[-> ->]]].
    + assert (∀ x, rtc (adj G1) w x → rtc (adj G1) a x) as Hst by (intros x Hx; by eapply rtc_l).
      destruct IH as [IH|[[I1 I2]|[I1 I2]]]; [left; by apply Hst|right; left; split; [by apply Hst|done]|right; right; split; [by apply Hst|done]].
    + destruct IH as [IH|[[I1 I2]|[I1 I2]]]; [right; left; by split|right; left; by split|by left].
    + destruct IH as [IH|[[I1 I2]|[I1 I2]]]; [right; right; by split|by left|right; right; by split].
  - intros [Hab|[[H1 H2]|[H1 H2]]]; [by apply Hup| |].
    + transitivity u; [by apply Hup|]. eapply rtc_l; [|apply Hup, H2]. apply HA. auto.
    + transitivity v; [by apply Hup|]. eapply rtc_l; [|apply Hup, H2]. apply HA. auto.
Qed.

(** The components of the two ends are joined; nothing else changes. *)
Lemma plus_edge_components G1 G2 u v : graph_wf G1 → graph_wf G2 → plus_edge G1 G2 u v →
  ∃ cs1 cs2 X Y, components G1 = Ok cs1 ∧ components G2 = Ok cs2 ∧ X ∈ cs1 ∧ Y ∈ cs1 ∧ u ∈ X ∧ v ∈ Y ∧
    (X = Y → cs2 ≡ₚ cs1) ∧ (X ≠ Y → ∃ rest, cs1 ≡ₚ X :: Y :: rest ∧ cs2 ≡ₚ (X ∪ Y) :: rest).
Proof using Hi.
  intros Hw1 Hw2 Hp. pose proof Hp as (Hu & Hv & HV & HA).
  destruct (C22_components G1 Hw1) as (cs1 & E1 & Hnd1 & Hne1 & Hdj1 & Hv1 & Hr1).
  destruct (proj1 (Hv1 u) Hu) as (X & HX & HuX). destruct (proj1 (Hv1 v) Hv) as (Y & HY & HvY).
  assert (∀ Z a b, Z ∈ cs1 → a ∈ Z → b ∈ Z ↔ rtc (adj G1) a b) as Hcl.
  { intros Z a b HZ Ha. assert (vtx G1 a) as Hav by (apply Hv1; eauto). rewrite <- (Hr1 a b Hav). split; [by eauto|].
    intros (Z' & HZ' & Ha' & Hb'). destruct (decide (Z' = Z)) as [->|Hn]; [done|]. by destruct (Hdj1 Z' Z HZ' HZ Hn a Ha' Ha). }
  destruct (decide (X = Y)) as [Heq|Hne].
  - destruct (components_value G2 cs1 Hw2 Hnd1 Hne1) as (cs2 & E2 & Hperm).
    + intros Z a b HZ Ha. rewrite (Hcl Z a b HZ Ha), (plus_edge_rtc G1 G2 u v a b Hw1 Hp). split; [by left|].
      assert (rtc (adj G1) u v) as Huv by (apply (Hcl X u v HX HuX); by rewrite Heq).
      intros [?|[[H1 H2]|[H1 H2]]]; [done| |].
      * transitivity u; [done|]. by transitivity v.
      * transitivity v; [done|]. transitivity u; [|done]. by apply rtc_sym'.
    + intros x. by rewrite HV, Hv1.
    + exists cs1, cs2, X, Y. split_and!; [done..|]. intros Hn. done.
  - apply elem_of_Permutation in HX as (l1 & Hp1). assert (Y ∈ l1) as (rest & Hp2)%elem_of_Permutation.
    { rewrite Hp1 in HY. apply elem_of_cons in HY as [->|?]; done. }
    rewrite Hp2 in Hp1. pose proof Hnd1 as Hnd. rewrite Hp1 in Hnd. apply NoDup_cons in Hnd as [HXn Hnd]. apply NoDup_cons in Hnd as [HYn Hnd].
    assert (X ∈ cs1) as HX by (rewrite Hp1; left). assert (∀ Z, Z ∈ rest → Z ∈ cs1) as Hrest by (intros Z HZ; rewrite Hp1; right; by right).
    destruct (components_value G2 ((X ∪ Y) :: rest) Hw2) as (cs2 & E2 & Hperm).
    + apply NoDup_cons. split; [|done]. intros HZ. destruct (decide (X ∪ Y = X)) as [Hz|Hz]; [rewrite Hz in HZ; by destruct HXn; right|].
      apply (Hdj1 (X ∪ Y) X (Hrest _ HZ) HX Hz u); [by apply elem_of_union_l|done].
    + intros Z [->|HZ]%elem_of_cons; [|by apply Hne1, Hrest]. intros He. assert (u ∈ X ∪ Y) as Hin by (by apply elem_of_union_l). rewrite He in Hin. by apply elem_of_empty in Hin.
    + intros Z a b HZ Ha. rewrite (plus_edge_rtc G1 G2 u v a b Hw1 Hp). apply elem_of_cons in HZ as [->|HZ].
      * apply elem_of_union in Ha. rewrite elem_of_union, (Hcl X u b HX HuX), (Hcl Y v b HY HvY).
        assert (rtc (adj G1) u v → False) as Hnuv.
        { intros Huv. apply (Hcl X u v HX HuX) in Huv. by destruct (Hdj1 X Y HX HY Hne v Huv HvY). }
        destruct Ha as [Ha|Ha].
        -- pose proof (proj1 (Hcl X u a HX HuX) Ha) as Hua. pose proof (rtc_sym' G1 u a Hw1 Hua) as Hau. split.
           ++ intros [Hb|Hb]; [left; by transitivity u|right; left; by split].
           ++ intros [Hb|[[_ Hb]|[_ Hb]]]; [left; by transitivity a|by right|by left].
        -- pose proof (proj1 (Hcl Y v a HY HvY) Ha) as Hva. pose proof (rtc_sym' G1 v a Hw1 Hva) as Hav. split.
           ++ intros [Hb|Hb]; [right; right; by split|left; by transitivity v].
           ++ intros [Hb|[[_ Hb]|[_ Hb]]]; [right; by transitivity a|by right|by left].
      * pose proof (Hrest Z HZ) as HZ1. rewrite (Hcl Z a b HZ1 Ha). split; [by left|]. intros [Hb|[[Hb _]|[Hb _]]]; [done|exfalso..].
        -- apply (Hcl Z a u HZ1 Ha) in Hb. assert (Z = X) as ->; [|by destruct HXn; right].
           destruct (decide (Z = X)) as [?|Hn]; [done|]. by destruct (Hdj1 Z X HZ1 HX Hn u Hb HuX).
        -- apply (Hcl Z a v HZ1 Ha) in Hb. assert (Z = Y) as ->; [|by destruct HYn].
           destruct (decide (Z = Y)) as [?|Hn]; [done|]. by destruct (Hdj1 Z Y HZ1 HY Hn v Hb HvY).
    + intros x. rewrite HV, Hv1. setoid_rewrite Hp1. split.
      * intros (Z & HZ & Hx). apply elem_of_cons in HZ as [->|HZ]; [exists (X ∪ Y); split; [left|by apply elem_of_union_l]|].
        apply elem_of_cons in HZ as [->|HZ]; [exists (X ∪ Y); split; [left|by apply elem_of_union_r]|]. exists Z. split; [by right|done].
      * intros (Z & HZ & Hx). apply elem_of_cons in HZ as [->|HZ]; [|exists Z; split; [right; by right|done]].
        apply elem_of_union in Hx as [Hx|Hx]; [exists X; split; [left|done]|exists Y; split; [right; left|done]].
    + exists cs1, cs2, X, Y. split_and!; [done..|]. intros _. by exists rest.
Qed.

(** Every proper 2-colouring agrees with the bipartition on a component, up to exchanging the colours. *)
Lemma colour_rigid (G : graph) (f g : N → bool) a b : (∀ x y, adj G x y → f x ≠ f y) → (∀ x y, adj G x y → g x ≠ g y) → rtc (adj G) a b →
  (f a = f b ↔ g a = g b).
Proof using Type.
  intros Hf Hg Hab. induction Hab as [|a w b Haw _ IH]; [done|]. specialize (Hf a w Haw). specialize (Hg a w Haw).
  assert (f a = negb (f w)) as -> by (by destruct (f a), (f w)). assert (g a = negb (g w)) as -> by (by destruct (g a), (g w)). clear Hf Hg.
  destruct (f w), (f b), (g w), (g b); cbn in *; intuition discriminate.
Qed.
Lemma plus_edge_bipartite G1 G2 u v L R : graph_wf G1 → graph_wf G2 → plus_edge G1 G2 u v → is_bipartite G1 = Ok (Bipartition L R) →
  (∃ L' R', is_bipartite G2 = Ok (Bipartition L' R')) ↔ ¬ (rtc (adj G1) u v ∧ (u ∈ L ↔ v ∈ L)).
Proof using Hi.
  intros Hw1 Hw2 Hp Hb. pose proof Hp as (Hu & Hv & HV & HA). destruct (C25_bipartition G1 L R Hw1 Hb) as (Hdj & _ & He).
  set (g := λ x, bool_decide (x ∈ L)).
  assert (∀ x y, adj G1 x y → g x ≠ g y) as Hg.
  { intros x y [[Hx Hy]|[Hx Hy]]%He; unfold g.
    - rewrite (bool_decide_true (x ∈ L)), (bool_decide_false (y ∈ L)); [done| |done]. intros Hy'. by apply (Hdj y).
    - rewrite (bool_decide_false (x ∈ L)), (bool_decide_true (y ∈ L)); [done|done|]. intros Hx'. by apply (Hdj x). }
  assert ((u ∈ L ↔ v ∈ L) ↔ g u = g v) as -> by (unfold g; do 2 case_bool_decide; intuition discriminate).
  rewrite (C25_iff_two_colourable G2 Hw2). split.
  - intros (f & Hf) [Hr Hs]. assert (f u ≠ f v) as Hn by (apply Hf, HA; auto). apply Hn. apply (colour_rigid G1 f g u v); [|done|done|done].
    intros x y Hxy. apply Hf, HA. by left.
  - intros Hn. destruct (decide (g u = g v)) as [Hs|Hs].
    + destruct (C22_components G1 Hw1) as (cs1 & _ & _ & _ & Hdj1 & Hv1 & Hr1). destruct (proj1 (Hv1 u) Hu) as (X & HX & HuX).
      assert (∀ a b, a ∈ X → b ∈ X ↔ rtc (adj G1) a b) as Hcl.
      { intros a b Ha. assert (vtx G1 a) as Hav by (apply Hv1; eauto). rewrite <- (Hr1 a b Hav). split; [by eauto|].
        intros (Z' & HZ' & Ha' & Hb'). destruct (decide (Z' = X)) as [->|Hne]; [done|]. by destruct (Hdj1 Z' X HZ' HX Hne a Ha' Ha). }
      assert (v ∉ X) as HvX by (intros Hin; apply Hn; split; [by apply Hcl|done]).
      set (f := λ x, if decide (x ∈ X) then negb (g x) else g x). exists f.
      assert (∀ x y, adj G1 x y → x ∈ X → y ∈ X) as Hst by (intros x y Hxy Hx; apply (Hcl x); [done|by apply rtc_once]).
      assert (f u ≠ f v) as Huv. { unfold f. rewrite decide_True, decide_False by done. rewrite Hs. by destruct (g v). }
      intros x y [Hxy|[[-> ->]|[-> ->]]]%HA; [|done|by intros ?].
      specialize (Hg x y Hxy). unfold f. destruct (decide (x ∈ X)) as [Hx|Hx], (decide (y ∈ X)) as [Hy|Hy].
      * by destruct (g x), (g y).
      * by destruct Hy; apply (Hst x).
      * by destruct Hx; apply (Hst y); [apply (wf_adj_sym _ Hw1)|].
      * done.
    + exists g. intros x y [Hxy|[[-> ->]|[-> ->]]]%HA; [by apply Hg|done|by intros ?].
Qed.
End tools.
