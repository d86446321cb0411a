(** Claims about the trace oracle (sreach_trace_oracle.rs). *)
From Verif Require Import Base Spec M_Graph M_Iterators M_EditGraph M_Algorithms M_OrdGraph M_DegenGraph M_Linear M_Trace
  S_Graph S_Linear S_Reach P_EditGraph P_Graph P_Iterators P_Degeneracy P_OrdGraph P_OrdGraph2 P_DegenGraph2 P_Linear P_Linear2
  P_Trace P_Trace2 P_Trace3 P_Trace4 T_DegenGraph Examples.

Section with_iter.
Context `{HI : HashIter}.

(** [X] lists vertices in the order, without repetition. *)
Definition in_order (order X : list N) : Prop :=
  (∀ x, x ∈ X → x ∈ order) ∧ ∀ i j x y, X !! i = Some x → X !! j = Some y → i < j → before order x y.
(** [v] lies outside [X] and its neighbours in [X] are the members of [Y]. *)
Definition traces_to (G : graph) (order X : list N) (Y : N → Prop) (v : N) : Prop :=
  v ∈ order ∧ v ∉ X ∧ ∀ u, u ∈ X → adjacent G u v = true ↔ Y u.

Lemma degen_ctx G order g : degen_of G order g → lgraph_wf (dg_lgraph g) ∧ vertices (dg_lgraph g) = order ∧
  (∀ u v, adjacent (dg_lgraph g) u v = adjacent G u v) ∧
  (∀ u v, dg_adjacent_ordered g u v = true ↔ adj (dg_lgraph g) u v ∧ before (vertices (dg_lgraph g)) u v).
Proof.
  intros (HL & _ & Hvs & _ & _ & _ & _ & _ & Ha & Hao & _). change (vertices (dg_graph g)) with (vertices (dg_lgraph g)) in Hvs.
  split_and!; [done|done|exact Ha|]. intros u v. rewrite Hao, Hvs. unfold adj.
  change (adjacent (dg_lgraph g)) with (adjacent (dg_graph g)). by rewrite Ha.
Qed.
Lemma ct_size (P : N → bool) l : NoDup l → ∃ E : gset N, size E = ct P l ∧ ∀ v, v ∈ E ↔ v ∈ l ∧ P v = true.
Proof.
  intros Hnd. exists (list_to_set (filter (λ x, P x = true) l)). split.
  - rewrite size_list_to_set by (by apply NoDup_filter). rewrite ct_filter. apply ct_ext. intros x _. by destruct (P x).
  - intros v. rewrite elem_of_list_to_set, elem_of_list_filter. tauto.
Qed.
Lemma ss_sublist {A} (R : A → A → Prop) (k l : list A) : k `sublist_of` l → StronglySorted R l → StronglySorted R k.
Proof.
  induction 1 as [|x k l Hk IH|x k l Hk IH]; intros Hs; [done| |]; inversion_clear Hs as [|? ? Hl Hf]; [|auto].
  constructor; [auto|]. rewrite Forall_forall in *. intros y Hy. apply Hf. eapply elem_of_submseteq; [exact Hy|by apply sublist_submseteq].
Qed.
Lemma trA_traces g X k v : lgraph_wf (dg_lgraph g) → StronglySorted (before (vertices (dg_lgraph g))) X → k `sublist_of` X →
  trA g X v = k ↔ ∀ u, u ∈ X → adjacent (dg_lgraph g) u v = true ↔ u ∈ k.
Proof.
  intros HL Hs Hk. split.
  - intros <- u Hu. unfold trA. rewrite elem_of_list_filter. tauto.
  - intros Hu. eapply lists_in_order_unique; [apply (vs_nodup _ HL)| |].
    + apply (lio_ss _ (λ x, adjacent (dg_lgraph g) x v = true ∧ x ∈ X)). split; [|apply ss_filter; exact Hs]. intros x. unfold trA. by rewrite elem_of_list_filter.
    + apply lio_ss. split; [|by eapply ss_sublist]. intros x. split.
      * intros Hx. assert (x ∈ X) as HxX by (eapply elem_of_submseteq; [exact Hx|by apply sublist_submseteq]). split; [by apply Hu|done].
      * intros [Hx HxX]. by apply Hu.
Qed.

Lemma traces_full G order g X : degen_of G order g → in_order order X → ∃ m T,
  so_for_graph g = Ok m ∧ so_compute_traces m X g = Ok T ∧
  (∀ k n, T !! k = Some n → k `sublist_of` X ∧
     ∃ E : gset N, size E = n ∧ ∀ v, v ∈ E ↔ traces_to G order X (λ u, u ∈ k) v) ∧
  (∀ v, v ∈ order → v ∉ X → ∃ k n, T !! k = Some n ∧ 0 < n ∧ traces_to G order X (λ u, u ∈ k) v).
Proof.
  intros Hd [HX1 HX2]. destruct (degen_ctx G order g Hd) as (HL & Hvs & Ha & Hao).
  destruct (so_for_graph_spec g HL) as (m & Hm & Hok). exists m.
  assert (StronglySorted (before (vertices (dg_lgraph g))) X) as Hs by (rewrite Hvs; by apply ss_lookup).
  assert (∀ x, x ∈ X → vtx (dg_lgraph g) x) as Hv. { intros x Hx. apply (vs_vtx _ HL). rewrite Hvs. auto. }
  destruct (compute_traces_spec g HL Hao m Hok X Hs Hv) as (T & HT & H1 & H2). exists T.
  assert (∀ k, k `sublist_of` X → ∀ v, v ∈ vertices (dg_lgraph g) →
    (negb (bool_decide (v ∈ X)) && bool_decide (trA g X v = k) = true ↔ traces_to G order X (λ u, u ∈ k) v)) as Htr.
  { intros k Hk v Hvv. rewrite andb_true_iff, negb_true_iff, bool_decide_eq_false, bool_decide_eq_true, (trA_traces g X k v HL Hs Hk).
    unfold traces_to. rewrite <- Hvs. setoid_rewrite Ha. tauto. }
  split_and!; [done|done| |].
  - intros k n Hn. destruct (H1 k n Hn) as [Hk ->]. split; [done|].
    destruct (ct_size (λ x, negb (bool_decide (x ∈ X)) && bool_decide (trA g X x = k)) _ (vs_nodup _ HL)) as (E & HE & HEv).
    exists E. split; [done|]. intros v. rewrite HEv. split.
    + intros [Hvv Hp]. by apply Htr.
    + intros Ht. pose proof Ht as (Hvv & _). rewrite <- Hvs in Hvv. split; [done|]. by apply Htr.
  - intros v Hvv HvX. rewrite <- Hvs in Hvv. destruct (H2 v Hvv HvX) as [n Hn]. exists (trA g X v), n. destruct (H1 _ _ Hn) as [Hk Hc].
    split_and!; [done| |].
    + rewrite Hc. apply (ct_pos _ _ v Hvv). rewrite (bool_decide_eq_false_2 (v ∈ X)) by done. by rewrite bool_decide_eq_true_2.
    + apply Htr; [done|done|]. rewrite (bool_decide_eq_false_2 (v ∈ X)) by done. by rewrite bool_decide_eq_true_2.
Qed.

(** ** C57: [compute_traces] counts every trace exactly; no counter underflows and no unchecked
    access misses. *)
Theorem C57_traces G order g X : degen_of G order g → in_order order X → ∃ m T,
  so_for_graph g = Ok m ∧ so_compute_traces m X g = Ok T ∧
  (∀ k n, T !! k = Some n → k `sublist_of` X ∧
     ∃ E : gset N, size E = n ∧ ∀ v, v ∈ E ↔ traces_to G order X (λ u, u ∈ k) v) ∧
  (∀ v, v ∈ order → v ∉ X → ∃ k n, T !! k = Some n ∧ 0 < n ∧ traces_to G order X (λ u, u ∈ k) v).
Proof. apply traces_full. Qed.

(** ** C58: [compute_neighbour_count] is the number of outside vertices with a neighbour in [X]. *)
Theorem C58_neighbour_count G order g X : degen_of G order g → in_order order X → ∃ m (E : gset N),
  so_for_graph g = Ok m ∧ so_neighbour_count m X g = Ok (size E) ∧
  ∀ v, v ∈ E ↔ v ∈ order ∧ v ∉ X ∧ ∃ u, u ∈ X ∧ adjacent G u v = true.
Proof.
  intros Hd [HX1 HX2]. destruct (degen_ctx G order g Hd) as (HL & Hvs & Ha & Hao).
  destruct (so_for_graph_spec g HL) as (m & Hm & Hok). exists m.
  assert (StronglySorted (before (vertices (dg_lgraph g))) X) as Hs by (rewrite Hvs; by apply ss_lookup).
  assert (∀ x, x ∈ X → vtx (dg_lgraph g) x) as Hv. { intros x Hx. apply (vs_vtx _ HL). rewrite Hvs. auto. }
  destruct (ct_size (λ x, negb (bool_decide (x ∈ X)) && bool_decide (trA g X x ≠ [])) _ (vs_nodup _ HL)) as (E & HE & HEv).
  exists E. split_and!; [done|by rewrite (neighbour_count_spec g HL Hao m Hok X Hs Hv), HE|].
  intros v. rewrite HEv, Hvs, andb_true_iff, negb_true_iff, bool_decide_eq_false, bool_decide_eq_true.
  assert (trA g X v ≠ [] ↔ ∃ u, u ∈ X ∧ adjacent G u v = true) as ->; [|tauto]. split.
  - intros Hne. destruct (trA g X v) as [|u l] eqn:E'; [done|]. exists u. assert (u ∈ trA g X v) as Hu by (rewrite E'; set_solver).
    apply elem_of_list_filter in Hu as [Hu ?]. by rewrite Ha in Hu.
  - intros (u & Hu & Hau) He. assert (u ∈ trA g X v) as Hin by (apply elem_of_list_filter; by rewrite Ha). rewrite He in Hin. set_solver.
Qed.

(** ** C59: [is_shattered].  Partial: the exponents must stay below 64; see the refutation. *)
Theorem C59_shattered_partial G order g X k : degen_of G order g → NoDup X → (∀ x, x ∈ X → x ∈ order) →
  length X ≤ k → k - length X < 64 → length X < 64 → ∃ m b,
  so_for_graph g = Ok m ∧ so_is_shattered m X k g = Ok b ∧
  (b = true ↔ ∀ Y : gset N, (∀ y, y ∈ Y → y ∈ X) →
     ∃ E : gset N, (2 ^ N.of_nat (k - length X) <= N.of_nat (size E))%N ∧ ∀ v, v ∈ E → traces_to G order X (λ u, u ∈ Y) v).
Proof.
  intros Hd Hnd HX Hk1 Hk2 Hk3. destruct (degen_ctx G order g Hd) as (HL & Hvs & _ & _).
  destruct (sort_vertices g HL X Hnd) as (X' & HX' & Hp & Hlio). { intros x Hx. apply (vs_vtx _ HL). rewrite Hvs. auto. }
  assert (in_order order X') as Hin. { split; [intros x; rewrite Hp; auto|]. rewrite <- Hvs. apply Hlio. }
  destruct (traces_full G order g X' Hd Hin) as (m & T & Hm & HT & H1 & H2). exists m.
  assert (length X' = length X) as Hlen by (by rewrite Hp).
  unfold so_is_shattered. rewrite HX'. cbn [mbind res_bind]. rewrite HT. cbn [mbind res_bind]. rewrite Hlen.
  rewrite (proj2 (Nat.leb_le _ _) Hk1). cbn [assert_res mbind res_bind]. unfold sub_checked. rewrite (proj2 (Nat.leb_le _ _) Hk1). cbn [mbind res_bind].
  rewrite (proj2 (Nat.ltb_lt _ _) Hk2), (proj2 (Nat.ltb_lt _ _) Hk3). cbn [assert_res mbind res_bind].
  assert (NoDup X') as Hnd' by (by rewrite Hp).
  assert (size (list_to_set (subs X') : gset (list N)) = 2 ^ length X) as Hsz.
  { rewrite size_list_to_set by (by apply subs_nodup). by rewrite subs_length, Hlen. }
  assert (dom T ⊆ (list_to_set (subs X') : gset (list N))) as Hsub.
  { intros s [n Hn]%elem_of_dom. apply elem_of_list_to_set, elem_of_subs. by apply (H1 s n). }
  assert (N.of_nat (2 ^ length X) = 2 ^ N.of_nat (length X))%N as Hpow by (by rewrite Nat2N.inj_pow).
  assert (∀ (Y : N → Prop) v, traces_to G order X' Y v ↔ traces_to G order X Y v) as HtX.
  { intros Y v. unfold traces_to. rewrite Hp. setoid_rewrite Hp. done. }
  assert (∀ (Y Y' : N → Prop) v, (∀ u, u ∈ X → Y u ↔ Y' u) → traces_to G order X Y v → traces_to G order X Y' v) as HtY.
  { intros Y Y' v HY (? & ? & Hu). split_and!; [done|done|]. intros u Hux. rewrite (Hu u Hux). by apply HY. }
  assert (∀ Y : gset N, filter (λ x, x ∈ Y) X' `sublist_of` X') as Hfs by (intros Y; apply filter_sublist).
  assert (∀ (Y : gset N) u, u ∈ X → u ∈ filter (λ x, x ∈ Y) X' ↔ u ∈ Y) as HfY.
  { intros Y u Hu. rewrite elem_of_list_filter, Hp. tauto. }
  assert (2 ^ N.of_nat (k - length X) ≠ 0)%N as Hpos by (apply N.pow_nonzero; lia).
  destruct (N.ltb_spec (N.of_nat (size T)) (2 ^ N.of_nat (length X))) as [Hlt|Hge].
  - exists false. split_and!; [done|done|]. split; [done|]. intros Hall. exfalso.
    assert (list_to_set (subs X') ⊆ (dom T : gset (list N))) as Hsup.
    { intros s Hs%elem_of_list_to_set%elem_of_subs. apply elem_of_dom.
      destruct (Hall (list_to_set s)) as (E & HE & HEv).
      { intros y Hy%elem_of_list_to_set. rewrite <- Hp. eapply elem_of_submseteq; [exact Hy|by apply sublist_submseteq]. }
      destruct (set_choose_or_empty E) as [[v Hv]|He]; [|rewrite (leibniz_equiv _ _ He), size_empty in HE; cbn in HE; lia].
      pose proof (HEv v Hv) as (Hvo & HvX & Hvu). rewrite <- Hp in HvX. destruct (H2 v Hvo HvX) as (s' & n & Hn & _ & _ & _ & Hu').
      assert (s = s') as ->; [|by exists n]. pose proof (vs_nodup _ HL) as Hndv. destruct (H1 s' n Hn) as [Hs' _].
      assert (StronglySorted (before order) X') as Hss by (apply ss_lookup; apply Hin).
      rewrite <- Hvs in Hss.
      eapply (lists_in_order_unique (vertices (dg_lgraph g)) (λ x, x ∈ s')); [done| |].
      - apply lio_ss. split; [|by eapply ss_sublist]. intros x.
        split; intros Hx; (assert (x ∈ X') as HxX by (eapply elem_of_submseteq; [exact Hx|by apply sublist_submseteq]));
          pose proof (Hu' x HxX) as E1; pose proof HxX as HxX2; rewrite Hp in HxX2; pose proof (Hvu x HxX2) as E2; rewrite elem_of_list_to_set in E2; tauto.
      - apply lio_ss. split; [reflexivity|by eapply ss_sublist]. }
    apply subseteq_size in Hsup. rewrite Hsz, size_dom in Hsup. lia.
  - eexists. split_and!; [done|reflexivity|]. rewrite forallb_forall. setoid_rewrite <- elem_of_list_In.
    assert (dom T = (list_to_set (subs X') : gset (list N))) as Hdom.
    { destruct (decide ((list_to_set (subs X') : gset (list N)) ⊆ dom T)) as [Hsup|Hsup]; [by apply (anti_symm (⊆))|].
      exfalso. assert (dom T ⊂ (list_to_set (subs X') : gset (list N))) as Hlt by (by split). apply subset_size in Hlt. rewrite Hsz, size_dom in Hlt. lia. }
    split.
    + intros Hall Y HY. assert (is_Some (T !! filter (λ x, x ∈ Y) X')) as [n Hn].
      { apply elem_of_dom. rewrite Hdom. by apply elem_of_list_to_set, elem_of_subs. }
      destruct (H1 _ _ Hn) as (_ & E & HE & HEv). exists E. split.
      * specialize (Hall (filter (λ x, x ∈ Y) X', n)). cbn [snd] in Hall. rewrite negb_true_iff, N.ltb_ge in Hall.
        rewrite HE. apply Hall. by apply elem_of_map_iter.
      * intros v Hv%HEv. apply HtX in Hv. eapply HtY; [|exact Hv]. intros u Hu. by apply HfY.
    + intros Hall [s n] Hsn. apply elem_of_map_iter in Hsn. cbn [snd]. rewrite negb_true_iff, N.ltb_ge.
      destruct (H1 _ _ Hsn) as (Hs & E & HE & HEv). destruct (Hall (list_to_set s)) as (E' & HE' & HEv').
      { intros y Hy%elem_of_list_to_set. rewrite <- Hp. eapply elem_of_submseteq; [exact Hy|by apply sublist_submseteq]. }
      assert (E' ⊆ E) as Hsz'.
      { intros v Hv%HEv'. apply HEv, HtX. eapply HtY; [|exact Hv]. intros u Hu. cbn. by rewrite elem_of_list_to_set. }
      apply subseteq_size in Hsz'. lia.
Qed.
End with_iter.

Local Existing Instance std_iter.

(** The full claim fails: [2usize.pow] overflows although the answer is well defined. *)
Theorem C59_shattered_refuted : ∃ G order g m X k, degen_of G order g ∧ so_for_graph g = Ok m ∧
  in_order order X ∧ length X ≤ k ∧ so_is_shattered m X k g = Panic.
Proof.
  destruct (ex_edit_spec [(0, 1)]%N) as [Hwf Hadj].
  assert (loopless (eg_graph (ex_edit [(0, 1)]%N))) as Hl by (intros u Hu; apply Hadj in Hu; set_solver).
  destruct (C37_from_graph (eg_graph (ex_edit [(0, 1)]%N)) Hwf Hl) as (lo & up & order & core & g & _ & _ & Hd); [vm_compute; done|].
  destruct (C57_traces _ order g [] Hd) as (m & T & Hm & HT & _).
  { split; [set_solver|]. intros i j x y Hi. by rewrite lookup_nil in Hi. }
  exists (eg_graph (ex_edit [(0, 1)]%N)), order, g, m, [], 64. split_and!; [exact Hd|exact Hm|split; [set_solver|by intros i j x y Hi; rewrite lookup_nil in Hi]|cbn; lia|]. unfold so_is_shattered.
  change (sort_by_index (dg_indices g) []) with (Ok ([] : list N)). cbn [mbind res_bind]. rewrite HT. reflexivity.
Qed.

(** Concrete cases: the 4-cycle 0-1-2-3 with a pendant 4 at 0 in the order 1,0,2,4,3; [X] = 0, 2
    has the outside vertices 1 and 3 (trace 0, 2) and 4 (trace 0). *)
Definition ex_trace_es : list (N * N) := [(0, 1); (1, 2); (2, 3); (3, 0); (0, 4)]%N.
Definition ex_trace (order : list N) : res degengraph := dg_with_ordering (eg_graph (ex_edit ex_trace_es)) order.
Example ex_trace_degen : ∃ g, ex_trace [1; 0; 2; 4; 3]%N = Ok g ∧ degen_of (eg_graph (ex_edit ex_trace_es)) [1; 0; 2; 4; 3]%N g ∧
  in_order [1; 0; 2; 4; 3]%N [0; 2]%N.
Proof.
  destruct (ex_edit_spec ex_trace_es) as [Hwf Hadj].
  destruct (C37_with_ordering (eg_graph (ex_edit ex_trace_es)) [1; 0; 2; 4; 3]%N Hwf) as (g & Hg & Hd).
  - intros u Hu. apply Hadj in Hu. set_solver.
  - apply (bool_decide_eq_true_1 (NoDup _)). vm_compute. reflexivity.
  - intros u. rewrite <- (wf_vertices _ Hwf u). change (vtx (eg_graph (ex_edit ex_trace_es)) u) with (contains (eg_graph (ex_edit ex_trace_es)) u = true).
    remember (vertices (eg_graph (ex_edit ex_trace_es))) as vv eqn:E. vm_compute in E. subst vv. clear. rewrite !elem_of_cons. tauto.
  - vm_compute. done.
  - exists g. split_and!; [exact Hg|exact Hd|clear; split; [intros x; rewrite !elem_of_cons; tauto|]]. intros i j x y Hi Hj Hlt.
    destruct i as [|[|i]], j as [|[|j]]; cbn in Hi, Hj; simplify_eq; try lia. exists 1, 2. split; [reflexivity|]. split; [reflexivity|lia].
Qed.
Example ex_C57 : (g ← ex_trace [1; 0; 2; 4; 3]%N; m ← so_for_graph g; T ← so_compute_traces m [0; 2]%N g; c ← so_neighbour_count m [0; 2]%N g;
   b1 ← so_is_shattered m [4]%N 1 g; b2 ← so_is_shattered m [2; 0]%N 2 g;
   Ok (T !! [0; 2]%N, T !! [0]%N, T !! [2]%N, T !! [], c, b1, b2))
  = Ok (Some 2, Some 1, None, Some 0, 3, true, false).
Proof. vm_compute. reflexivity. Qed.

Print Assumptions C57_traces.
Print Assumptions C58_neighbour_count.
Print Assumptions C59_shattered_partial.
Print Assumptions C59_shattered_refuted.
