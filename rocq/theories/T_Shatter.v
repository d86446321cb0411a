(** C102: what the answers of the trace oracle say about the graph, and how they fit together (sreach_trace_oracle.rs). *)
From Verif Require Import Base Spec M_Graph M_Iterators M_EditGraph M_Algorithms M_OrdGraph M_DegenGraph M_Linear M_Trace
  S_Graph S_Linear S_Reach P_EditGraph P_Graph P_Iterators P_Degeneracy P_OrdGraph P_OrdGraph2 P_DegenGraph2 P_Linear P_Linear2
  P_Trace P_Trace2 P_Trace3 P_Trace4 P_Shatter T_Algorithms T_DegenGraph T_Trace Examples.

Section with_iter.
Context `{HI : HashIter}.

(** The vertices outside [X] (the candidates for a trace on [X]). *)
Notation outside order X := (λ v, v ∈ order ∧ v ∉ X).
Notation edge G := (λ u v, adjacent G u v = true).

Lemma is_shattered_num G order g m X k b : degen_of G order g → NoDup X → (∀ x, x ∈ X → x ∈ order) → so_for_graph g = Ok m →
  so_is_shattered m X k g = Ok b → length X ≤ k ∧ k - length X < 64 ∧ length X < 64.
Proof.
  intros Hd Hnd HX Hm Hs. destruct (degen_ctx G order g Hd) as (HL & Hvs & _ & _).
  destruct (sort_vertices g HL X Hnd) as (X' & HX' & Hp & Hlio). { intros x Hx. apply (vs_vtx _ HL). rewrite Hvs. auto. }
  unfold so_is_shattered in Hs. rewrite HX' in Hs. cbn [mbind res_bind] in Hs. rewrite (Permutation_length Hp) in Hs.
  destruct (so_compute_traces m X' g) as [T| |]; [|done|done]. cbn [mbind res_bind] in Hs. unfold sub_checked in Hs.
  destruct (Nat.leb_spec (length X) k) as [H1|]; [|done]. cbn [assert_res mbind res_bind] in Hs.
  destruct (Nat.ltb_spec (k - length X) 64) as [H2|]; [|done]. cbn [assert_res mbind res_bind] in Hs.
  destruct (Nat.ltb_spec (length X) 64) as [H3|]; [done|done].
Qed.

Lemma is_shattered_iff G order g m X k : degen_of G order g → NoDup X → (∀ x, x ∈ X → x ∈ order) → so_for_graph g = Ok m →
  length X ≤ k → k - length X < 64 → length X < 64 →
  ∃ b, so_is_shattered m X k g = Ok b ∧ (b = true ↔ shat (outside order X) (edge G) X (k - length X)).
Proof.
  intros Hd Hnd HX Hm H1 H2 H3. destruct (C59_shattered_partial G order g X k Hd Hnd HX H1 H2 H3) as (m' & b & Hm' & Hb & Hiff).
  rewrite Hm in Hm'. injection Hm' as <-. exists b. split; [done|]. rewrite Hiff. unfold shat, traces_to.
  split; intros Hall Y HY; destruct (Hall Y HY) as (E & HE & HEv); exists E; (split; [done|]); intros v Hv; destruct (HEv v Hv); tauto.
Qed.
Lemma is_shattered_shat G order g m X k : degen_of G order g → NoDup X → (∀ x, x ∈ X → x ∈ order) → so_for_graph g = Ok m →
  so_is_shattered m X k g = Ok true → shat (outside order X) (edge G) X (k - length X).
Proof.
  intros Hd Hnd HX Hm Hs. destruct (is_shattered_num _ _ _ _ _ _ _ Hd Hnd HX Hm Hs) as (H1 & H2 & H3).
  destruct (is_shattered_iff _ _ _ _ _ _ Hd Hnd HX Hm H1 H2 H3) as (b & Hb & Hiff). rewrite Hs in Hb. injection Hb as <-. by apply Hiff.
Qed.

Lemma nodup_sublist {A} (k l : list A) : k `sublist_of` l → NoDup l → NoDup k.
Proof.
  induction 1 as [|x k l Hk IH|x k l Hk IH]; intros Hnd; [constructor| |]; apply NoDup_cons in Hnd as [Hx Hnd]; [|auto].
  apply NoDup_cons. split; [|auto]. intros Hxk. apply Hx. eapply elem_of_submseteq; [exact Hxk|by apply sublist_submseteq].
Qed.

(** ** The counters of [compute_traces] add up to the number of vertices outside [X]. *)
Lemma traces_unique G order g X k k' v : degen_of G order g → in_order order X → k `sublist_of` X → k' `sublist_of` X →
  traces_to G order X (λ u, u ∈ k) v → traces_to G order X (λ u, u ∈ k') v → k = k'.
Proof.
  intros Hd [HX1 HX2] Hk Hk' (_ & _ & H1) (_ & _ & H2). destruct (degen_ctx G order g Hd) as (HL & Hvs & Ha & Hao).
  assert (StronglySorted (before (vertices (dg_lgraph g))) X) as Hs by (rewrite Hvs; by apply ss_lookup).
  transitivity (trA g X v); [symmetry|]; apply (trA_traces g X _ v HL Hs); [done| |done|]; intros u Hu; rewrite Ha; auto.
Qed.
Lemma traces_union G order g X (l : list (list N * nat)) : degen_of G order g → in_order order X → NoDup l.*1 →
  (∀ k n, (k, n) ∈ l → k `sublist_of` X ∧ ∃ E : gset N, size E = n ∧ ∀ v, v ∈ E ↔ traces_to G order X (λ u, u ∈ k) v) →
  ∃ U : gset N, size U = sum_list l.*2 ∧ ∀ v, v ∈ U ↔ ∃ k n, (k, n) ∈ l ∧ traces_to G order X (λ u, u ∈ k) v.
Proof.
  intros Hd HX. induction l as [|[k n] l IH]; intros Hnd Hl.
  { exists ∅. split; [done|]. intros v. split; [set_solver|]. intros (k & n & Hin & _). by apply elem_of_nil in Hin. }
  cbn in Hnd. apply NoDup_cons in Hnd as [Hk Hnd]. destruct IH as (U & HU & HUv); [done|intros k' n' Hin; apply Hl; by right|].
  destruct (Hl k n) as (Hks & E & HE & HEv); [left|]. exists (E ∪ U). split.
  - cbn. rewrite size_union, HE, HU; [done|]. intros v Hv%HEv (k' & n' & Hin & Hv')%HUv. destruct (Hl k' n') as (Hks' & _); [by right|].
    assert (k = k') as -> by (by eapply traces_unique). apply Hk, elem_of_list_fmap. by exists (k', n').
  - intros v. rewrite elem_of_union, HEv, HUv. split.
    + intros [Hv|(k' & n' & Hin & Hv)]; [exists k, n; split; [left|done]|exists k', n'; split; [by right|done]].
    + intros (k' & n' & [Heq|Hin]%elem_of_cons & Hv); [left; by simplify_eq|right; eauto].
Qed.
Lemma outside_size (order X : list N) (U : gset N) : NoDup order → NoDup X → (∀ x, x ∈ X → x ∈ order) →
  (∀ v, v ∈ U ↔ v ∈ order ∧ v ∉ X) → size U + length X = length order.
Proof.
  intros Ho HX Hsub HU. rewrite <- (size_list_to_set (C := gset N) X), <- (size_list_to_set (C := gset N) order) by done.
  rewrite <- size_union.
  - f_equal. apply set_eq. intros v. rewrite elem_of_union, HU, !elem_of_list_to_set. destruct (decide (v ∈ X)); [|tauto]. split; auto.
  - intros v Hv HvX. apply HU in Hv as [_ Hv]. by apply elem_of_list_to_set in HvX.
Qed.
Lemma in_order_nodup G order g X : degen_of G order g → in_order order X → NoDup X ∧ NoDup order.
Proof.
  intros Hd [H1 H2]. destruct (degen_ctx G order g Hd) as (HL & Hvs & _ & _). pose proof (vs_nodup _ HL) as Hnd. rewrite Hvs in Hnd.
  split; [|done]. apply NoDup_alt. intros i j x Hi Hj. destruct (lt_eq_lt_dec i j) as [[Hlt|]|Hlt]; [|done|]; exfalso.
  - destruct (H2 i j x x Hi Hj Hlt) as (a & b & Ha & Hb & Hab). pose proof (NoDup_lookup _ _ _ _ Hnd Ha Hb). lia.
  - destruct (H2 j i x x Hj Hi Hlt) as (a & b & Ha & Hb & Hab). pose proof (NoDup_lookup _ _ _ _ Hnd Ha Hb). lia.
Qed.

Theorem C102_total G order g X m T : degen_of G order g → in_order order X →
  so_for_graph g = Ok m → so_compute_traces m X g = Ok T → sum_list (map_to_list T).*2 + length X = length order.
Proof.
  intros Hd HX Hm HT. destruct (C57_traces G order g X Hd HX) as (m' & T' & Hm' & HT' & H1 & H2).
  rewrite Hm in Hm'. injection Hm' as <-. rewrite HT in HT'. injection HT' as <-.
  destruct (traces_union G order g X (map_to_list T) Hd HX) as (U & <- & HUv); [apply NoDup_fst_map_to_list|intros k n Hin%elem_of_map_to_list; auto|].
  destruct (in_order_nodup G order g X Hd HX) as [HndX Hndo]. apply outside_size; [done|done|apply HX|]. intros v. rewrite HUv. split.
  - intros (k & n & _ & Hv & HvX & _). done.
  - intros [Hv HvX]. destruct (H2 v Hv HvX) as (k & n & Hkn & _ & Ht). exists k, n. split; [by apply elem_of_map_to_list|done].
Qed.

(** The two counting functions agree: the vertices with a neighbour in [X] are those without the empty trace. *)
Theorem C102_neighbours G order g X m T c : degen_of G order g → in_order order X →
  so_for_graph g = Ok m → so_compute_traces m X g = Ok T → so_neighbour_count m X g = Ok c →
  c + default 0 (T !! []) + length X = length order ∧ c + default 0 (T !! []) = sum_list (map_to_list T).*2.
Proof.
  intros Hd HX Hm HT Hc. pose proof (C102_total G order g X m T Hd HX Hm HT) as Htot. enough (c + default 0 (T !! []) + length X = length order) by lia.
  destruct (C57_traces G order g X Hd HX) as (m' & T' & Hm' & HT' & H1 & H2).
  rewrite Hm in Hm'. injection Hm' as <-. rewrite HT in HT'. injection HT' as <-.
  destruct (C58_neighbour_count G order g X Hd HX) as (m' & E & Hm' & Hc' & HEv).
  rewrite Hm in Hm'. injection Hm' as <-. rewrite Hc in Hc'. injection Hc' as ->.
  assert (∃ F : gset N, size F = default 0 (T !! []) ∧ ∀ v, v ∈ F ↔ v ∈ order ∧ v ∉ X ∧ ∀ u, u ∈ X → ¬ adjacent G u v = true) as (F & HF & HFv).
  { destruct (T !! []) as [n|] eqn:En.
    - destruct (H1 [] n En) as (_ & F & HF & HFv). exists F. split; [done|]. intros v. rewrite HFv. unfold traces_to.
      setoid_rewrite elem_of_nil. naive_solver.
    - exists ∅. split; [done|]. intros v. split; [set_solver|]. intros (Hv & HvX & Hno). exfalso.
      destruct (H2 v Hv HvX) as (k & n & Hk & _ & _ & _ & Hu). destruct k as [|u k]; [by rewrite En in Hk|].
      assert (u ∈ X) as HuX by (eapply elem_of_submseteq; [left|apply sublist_submseteq; apply (H1 _ _ Hk)]).
      apply (Hno u HuX), Hu; [done|left]. }
  destruct (in_order_nodup G order g X Hd HX) as [HndX Hndo].
  rewrite <- HF. rewrite <- size_union.
  - apply outside_size; [done|done|apply HX|]. intros v. rewrite elem_of_union, HEv, HFv.
    destruct (decide (Exists (λ u, adjacent G u v = true) X)) as [He|Hn].
    + apply Exists_exists in He as (u & Hu & Hau). split; [tauto|]. intros [? ?]. left. eauto.
    + split; [tauto|]. intros [? ?]. right. split_and!; [done|done|]. intros u Hu Hau. apply Hn, Exists_exists. eauto.
  - intros v (_ & _ & u & Hu & Hau)%HEv (_ & _ & Hno)%HFv. by apply (Hno u Hu).
Qed.

(** ** Shattering is inherited by subsets at the same exponent [k] and by smaller exponents. *)
Theorem C102_hereditary G order g m X X' k k' : degen_of G order g → NoDup X → (∀ x, x ∈ X → x ∈ order) → so_for_graph g = Ok m →
  so_is_shattered m X k g = Ok true →
  NoDup X' → (∀ x, x ∈ X' → x ∈ X) → length X' ≤ k' → k' ≤ k → k' - length X' < 64 → so_is_shattered m X' k' g = Ok true.
Proof.
  intros Hd Hnd HX Hm Hs Hnd' Hsub Hk1 Hk2 Hk3. destruct (is_shattered_num _ _ _ _ _ _ _ Hd Hnd HX Hm Hs) as (H1 & H2 & H3).
  apply (is_shattered_shat _ _ _ _ _ _ Hd Hnd HX Hm) in Hs. apply (shat_sub _ _ _ X') in Hs; [|done|done|done].
  assert (length X' ≤ length X) as Hle by (by apply submseteq_length, NoDup_submseteq).
  destruct (is_shattered_iff G order g m X' k' Hd Hnd') as (b & -> & Hb); [auto|done|done|done|lia|]. f_equal. apply Hb.
  apply (shat_le _ _ _ (k - length X + (length X - length X'))); [lia|]. eapply shat_weaken; [|exact Hs]. intros v [? ?]. split; [done|]. auto.
Qed.

(** ** A shattered set needs many vertices: 2^k outside [X], half of them at each member. *)
Theorem C102_large G order g m X k : degen_of G order g → NoDup X → (∀ x, x ∈ X → x ∈ order) → so_for_graph g = Ok m →
  so_is_shattered m X k g = Ok true →
  (2 ^ N.of_nat k + N.of_nat (length X) <= N.of_nat (num_vertices (dg_graph g)))%N ∧
  ∀ x, x ∈ X → (2 ^ N.of_nat (k - 1) <= N.of_nat (degree (dg_graph g) x))%N.
Proof.
  intros Hd Hnd HX Hm Hs. destruct (is_shattered_num _ _ _ _ _ _ _ Hd Hnd HX Hm Hs) as (H1 & H2 & H3).
  apply (is_shattered_shat _ _ _ _ _ _ Hd Hnd HX Hm) in Hs. pose proof Hd as (HL & _ & Hvs & _ & Hn & _ & _ & Hcon & Ha & _).
  pose proof (vs_nodup _ HL) as Hndo. change (vertices (dg_lgraph g)) with (vertices (dg_graph g)) in Hndo. rewrite Hvs in Hndo. split.
  - destruct (shat_sub _ _ X [] _ Hnd (NoDup_nil_2) ltac:(set_solver) Hs ∅) as (E & HE & HEv); [set_solver|]. cbn in HE.
    replace (k - length X + (length X - 0)) with k in HE by lia. rewrite Hn.
    assert (size E + length X ≤ length order); [|lia].
    rewrite <- (size_list_to_set (C := gset N) X), <- (size_list_to_set (C := gset N) order), <- size_union by
      (done || (intros v Hv HvX; apply HEv in Hv as [[_ Hv] _]; by apply elem_of_list_to_set in HvX)).
    apply subseteq_size. intros v [Hv|Hv]%elem_of_union; apply elem_of_list_to_set; [by apply HEv in Hv as [[? _] _]|].
    apply elem_of_list_to_set in Hv. auto.
  - intros x Hx. assert (0 < length X) as Hpos by (destruct X; [by apply elem_of_nil in Hx|cbn; lia]).
    destruct (shat_sub _ _ X [x] _ Hnd (NoDup_singleton x) ltac:(set_solver) Hs {[x]}) as (E & HE & HEv); [set_solver|].
    cbn [length] in HE. replace (k - length X + (length X - 1)) with (k - 1) in HE by lia. etrans; [exact HE|].
    destruct (wf_neighbours _ (lwf_graph _ HL) x) as (l & _ & Hndl & Hl & Hdeg); [apply Hcon; auto|].
    change (degree (dg_lgraph g) x) with (degree (dg_graph g) x) in Hdeg.
    assert (size E ≤ length l); [|lia]. rewrite <- (size_list_to_set (C := gset N) l) by done. apply subseteq_size. intros v Hv%HEv.
    apply elem_of_list_to_set, Hl. unfold adj. change (adjacent (dg_lgraph g)) with (adjacent (dg_graph g)). rewrite Ha.
    apply Hv; set_solver.
Qed.

(** ** Sparse graphs have no large shattered sets: [X] has at most one vertex more than the largest left degree, in whatever
    order the DegenGraph was built, and at most one more than the degeneracy. *)
Theorem C102_left_degree G order g m X k : degen_of G order g → NoDup X → (∀ x, x ∈ X → x ∈ order) → so_for_graph g = Ok m →
  so_is_shattered m X k g = Ok true → ∃ v d, v ∈ order ∧ dg_left_degree g v = Ok d ∧ length X ≤ d + 1.
Proof.
  intros Hd Hnd HX Hm Hs. apply (is_shattered_shat _ _ _ _ _ _ Hd Hnd HX Hm) in Hs.
  pose proof Hd as (HL & _ & Hvs & _ & _ & _ & _ & Hcon & Ha & _ & _ & Hleft & _). pose proof (vs_nodup _ HL) as Hndo.
  assert (shat (outside order X) (edge (dg_lgraph g)) X (k - length X)) as Hs'.
  { intros Y HY. destruct (Hs Y HY) as (E & HE & HEv). exists E. split; [done|]. intros v Hv. destruct (HEv v Hv) as [HQ Hu]. split; [done|].
    intros u Hux. change (adjacent (dg_lgraph g)) with (adjacent (dg_graph g)). rewrite Ha. auto. }
  destruct (shat_core (dg_lgraph g) X (k - length X) (outside order X) (lwf_graph _ HL) Hnd) as (H & Hne & _ & Hmin); [intros x Hx; apply Hcon; auto|intros v [Hv _]; by apply Hcon|exact Hs'|].
  change (vertices (dg_lgraph g)) with (vertices (dg_graph g)) in Hndo. rewrite Hvs in Hndo.
  destruct (min_degree_left (dg_lgraph g) H (length X - 1) order (lwf_graph _ HL) (lwf_loopless _ HL) Hne Hmin Hndo) as (v & l & Hv & [Hndl Hl] & Hlen); [intros v Hv; by apply Hcon|].
  destruct (Hleft v Hv) as (l' & _ & _ & _ & [Hl' _] & _ & Hdeg & _). exists v, (length l'). split_and!; [done|done|].
  assert (length l ≤ length l'); [|lia]. apply submseteq_length, NoDup_submseteq; [done|]. intros u Hu. apply Hl'.
  destruct (Hl u Hu) as [Hau Hb]. unfold adj in Hau. change (adjacent (dg_lgraph g)) with (adjacent (dg_graph g)) in Hau. by rewrite Ha in Hau.
Qed.
Theorem C102_degeneracy G order g m X k lo up order' core : degen_of G order g → graph_wf G → loopless G → (∀ x, x ∈ order → contains G x = true) →
  degeneracy G = Ok (lo, up, order', core) → NoDup X → (∀ x, x ∈ X → x ∈ order) → so_for_graph g = Ok m →
  so_is_shattered m X k g = Ok true → length X ≤ up + 1.
Proof.
  intros Hd Hwf Hl Hcon Hdeg Hnd HX Hm Hs. destruct (is_shattered_num _ _ _ _ _ _ _ Hd Hnd HX Hm Hs) as (_ & _ & H3).
  apply (is_shattered_shat _ _ _ _ _ _ Hd Hnd HX Hm) in Hs.
  destruct (shat_core G X (k - length X) (outside order X) Hwf Hnd) as (H & Hne & _ & Hmin); [intros x Hx; apply Hcon; auto|intros v [Hv _]; by apply Hcon|exact Hs|].
  destruct (decide (up ≤ 129)) as [Hup|Hup]; [|lia].
  destruct (set_choose_L H Hne) as [v Hv]. destruct (C24_exact_small G lo up order' core Hwf Hl Hdeg) as (_ & _ & Hmax & _); [exists v; apply (Hmin v Hv)|done|].
  pose proof (Hmax H _ Hne Hmin). lia.
Qed.
End with_iter.

(** ** The answers do not depend on the order chosen for the DegenGraph nor on the order of the hash containers. *)
Theorem C102_traces_independent (H1 H2 : HashIter) G order1 order2 g1 g2 m1 m2 X1 X2 T1 T2 :
  @degen_of H1 G order1 g1 → @degen_of H2 G order2 g2 → (∀ u, u ∈ order1 ↔ u ∈ order2) →
  in_order order1 X1 → in_order order2 X2 → X1 ≡ₚ X2 →
  @so_for_graph H1 g1 = Ok m1 → @so_for_graph H2 g2 = Ok m2 →
  @so_compute_traces H1 m1 X1 g1 = Ok T1 → @so_compute_traces H2 m2 X2 g2 = Ok T2 →
  ∀ k1 n, T1 !! k1 = Some n → 0 < n → ∃ k2, k2 ≡ₚ k1 ∧ T2 !! k2 = Some n.
Proof.
  intros Hd1 Hd2 Ho HX1 HX2 Hp Hm1 Hm2 HT1 HT2 k1 n Hk1 Hn.
  destruct (@C57_traces H1 G order1 g1 X1 Hd1 HX1) as (m & T & Hm & HT & A1 & A2).
  rewrite Hm1 in Hm. injection Hm as <-. rewrite HT1 in HT. injection HT as <-.
  destruct (@C57_traces H2 G order2 g2 X2 Hd2 HX2) as (m & T & Hm & HT & B1 & B2).
  rewrite Hm2 in Hm. injection Hm as <-. rewrite HT2 in HT. injection HT as <-.
  destruct (A1 k1 n Hk1) as (Hs1 & E1 & HE1 & HEv1).
  destruct (set_choose_or_empty E1) as [[v Hv]|He]; [|rewrite (leibniz_equiv _ _ He), size_empty in HE1; lia].
  apply HEv1 in Hv as (Hvo & HvX & Hvu). destruct (B2 v) as (k2 & n2 & Hk2 & _ & _ & _ & Hu2); [by apply Ho|by rewrite <- Hp|].
  destruct (B1 k2 n2 Hk2) as (Hs2 & E2 & HE2 & HEv2).
  pose proof (@in_order_nodup H1 G order1 g1 X1 Hd1 HX1) as [Hnd1 _]. pose proof (@in_order_nodup H2 G order2 g2 X2 Hd2 HX2) as [Hnd2 _].
  assert (∀ u, u ∈ X1 → u ∈ k1 ↔ u ∈ k2) as Hk12. { intros u Hu. rewrite <- (Hvu u Hu). apply Hu2. by rewrite <- Hp. }
  assert (k2 ≡ₚ k1) as Hpk.
  { apply NoDup_Permutation; [by eapply nodup_sublist|by eapply nodup_sublist|]. intros u. split; intros Hu.
    - apply Hk12; [|done]. rewrite Hp. eapply elem_of_submseteq; [exact Hu|by apply sublist_submseteq].
    - apply Hk12; [|done]. eapply elem_of_submseteq; [exact Hu|by apply sublist_submseteq]. }
  exists k2. split; [done|]. rewrite Hk2, <- HE1, <- HE2. do 2 f_equal. apply set_eq. intros w. rewrite HEv1, HEv2. unfold traces_to.
  rewrite <- Hp, Ho. setoid_rewrite Hpk. setoid_rewrite <- Hp. done.
Qed.
Theorem C102_shattered_independent (H1 H2 : HashIter) G order1 order2 g1 g2 m1 m2 X1 X2 k :
  @degen_of H1 G order1 g1 → @degen_of H2 G order2 g2 → (∀ u, u ∈ order1 ↔ u ∈ order2) →
  NoDup X1 → (∀ x, x ∈ X1 → x ∈ order1) → X1 ≡ₚ X2 →
  @so_for_graph H1 g1 = Ok m1 → @so_for_graph H2 g2 = Ok m2 →
  length X1 ≤ k → k - length X1 < 64 → length X1 < 64 →
  ∃ b, @so_is_shattered H1 m1 X1 k g1 = Ok b ∧ @so_is_shattered H2 m2 X2 k g2 = Ok b.
Proof.
  intros Hd1 Hd2 Ho Hnd HX Hp Hm1 Hm2 L1 L2 L3. pose proof (Permutation_length Hp) as Hlen.
  destruct (@is_shattered_iff H1 G order1 g1 m1 X1 k Hd1 Hnd HX Hm1 L1 L2 L3) as (b1 & Hb1 & Hi1).
  destruct (@is_shattered_iff H2 G order2 g2 m2 X2 k Hd2) as (b2 & Hb2 & Hi2); [by rewrite <- Hp|intros x Hx; rewrite <- Hp in Hx; by apply Ho, HX|done|lia|lia|lia|].
  exists b1. split; [done|]. rewrite Hb2. f_equal. apply eq_true_iff_eq. rewrite Hi1, Hi2, <- Hlen. split; intros Hs.
  - eapply shat_perm; [symmetry; exact Hp|]. eapply shat_weaken; [|exact Hs]. intros v. cbn. by rewrite Ho, Hp.
  - eapply shat_perm; [exact Hp|]. eapply shat_weaken; [|exact Hs]. intros v. cbn. by rewrite Ho, Hp.
Qed.

Local Existing Instance std_iter.

(** Concrete cases: the path 2-3-0-5-1-4.  [X] = 0, 1 is shattered at exponent 2: the traces of 2, 3, 4, 5 are the four subsets.  All
    bounds are tight: 6 vertices are 2^2 + 2, the degrees of 0 and 1 are 2^1, and the degeneracy is 1. *)
Definition ex_sh_es : list (N * N) := [(2, 3); (3, 0); (0, 5); (5, 1); (1, 4)]%N.
Definition ex_sh (order : list N) : res degengraph := dg_with_ordering (eg_graph (ex_edit ex_sh_es)) order.
Lemma ex_sh_degen order : bool_decide (order ≡ₚ [0; 1; 2; 3; 4; 5]%N) = true →
  ∃ g, ex_sh order = Ok g ∧ degen_of (eg_graph (ex_edit ex_sh_es)) order g.
Proof.
  intros Hp%bool_decide_eq_true. destruct (ex_edit_spec ex_sh_es) as [Hwf Hadj].
  apply C37_with_ordering; [done| | | |].
  - intros u Hu. apply Hadj in Hu. set_solver.
  - rewrite Hp. apply (bool_decide_eq_true_1 (NoDup _)). vm_compute. reflexivity.
  - intros u. rewrite <- (wf_vertices _ Hwf u), Hp.
    remember (vertices (eg_graph (ex_edit ex_sh_es))) as vv eqn:E. vm_compute in E. subst vv. clear. rewrite !elem_of_cons. tauto.
  - rewrite (Permutation_length Hp). vm_compute. done.
Qed.
Example ex_C102 : (∃ g, ex_sh [5; 0; 1; 3; 4; 2]%N = Ok g ∧ degen_of (eg_graph (ex_edit ex_sh_es)) [5; 0; 1; 3; 4; 2]%N g) ∧
  in_order [5; 0; 1; 3; 4; 2]%N [0; 1]%N ∧
  (g ← ex_sh [5; 0; 1; 3; 4; 2]%N; m ← so_for_graph g; b1 ← so_is_shattered m [1; 0]%N 2 g; b2 ← so_is_shattered m [1]%N 2 g;
   b3 ← so_is_shattered m [0; 1]%N 3 g; d ← degeneracy (eg_graph (ex_edit ex_sh_es));
   Ok (b1, b2, b3, num_vertices (dg_graph g), degree (dg_graph g) 0%N, degree (dg_graph g) 1%N, d.1.1.2)) = Ok (true, true, false, 6, 2, 2, 1).
Proof.
  split_and!; [apply ex_sh_degen; vm_compute; reflexivity| |vm_compute; reflexivity].
  split; [intros x; rewrite !elem_of_cons; tauto|]. intros i j x y Hi Hj Hlt.
  destruct i as [|[|i]], j as [|[|j]]; cbn in Hi, Hj; simplify_eq; try lia. exists 1, 2. split; [reflexivity|]. split; [reflexivity|lia].
Qed.
(** The counters of [X] = 0, 1, their total, and the other order, in which the keys are listed the other way round. *)
Example ex_C102_orders : (∃ g, degen_of (eg_graph (ex_edit ex_sh_es)) [4; 1; 2; 0; 5; 3]%N g) ∧
  (g ← ex_sh [5; 0; 1; 3; 4; 2]%N; m ← so_for_graph g; T ← so_compute_traces m [0; 1]%N g; c ← so_neighbour_count m [0; 1]%N g;
   g' ← ex_sh [4; 1; 2; 0; 5; 3]%N; m' ← so_for_graph g'; T' ← so_compute_traces m' [1; 0]%N g'; b ← so_is_shattered m' [0; 1]%N 2 g';
   Ok (T !! [0; 1]%N, T !! [0]%N, T !! [], sum_list (map_to_list T).*2, c, T' !! [1; 0]%N, T' !! [0]%N, b))
  = Ok (Some 1, Some 1, Some 1, 4, 3, Some 1, Some 1, true).
Proof.
  split; [destruct (ex_sh_degen [4; 1; 2; 0; 5; 3]%N) as (g & _ & Hd); [vm_compute; reflexivity|by exists g]|]. vm_compute. reflexivity.
Qed.

Print Assumptions C102_total.
Print Assumptions C102_neighbours.
Print Assumptions C102_hereditary.
Print Assumptions C102_large.
Print Assumptions C102_left_degree.
Print Assumptions C102_degeneracy.
Print Assumptions C102_traces_independent.
Print Assumptions C102_shattered_independent.
