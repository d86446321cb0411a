(** Proof file for C107: orders of the vertices in which components are searched one after the other, and counting with them
    (no code is modelled here). *)
From Verif Require Import Base Spec M_Graph M_Iterators M_EditGraph M_Algorithms M_OrdGraph S_Graph S_Linear
  P_EditGraph P_Degeneracy P_OrdGraph P_OrdGraph2 P_DegenGraph P_Counts T_Algorithms T_OrdGraph T_Counts.

(** Every vertex has an earlier neighbour, or no earlier vertex is connected to it. *)
Definition searched (G : graph) (l : list N) : Prop :=
  ∀ v, v ∈ l → (∃ u, before l u v ∧ adj G u v) ∨ ∀ u, before l u v → ¬ rtc (adj G) u v.

Lemma rtc_crosses (R : N → N → Prop) (l : list N) u v : rtc R u v → u ∈ l → v ∉ l → ∃ a b, a ∈ l ∧ b ∉ l ∧ R a b ∧ rtc R b v.
Proof.
  induction 1 as [|u w v Huw Hwv IH]; intros Hu Hv; [done|]. destruct (decide (w ∈ l)) as [Hw|Hw]; [by apply IH|]. by exists u, w.
Qed.
Lemma before_unsnoc (l : list N) u w v : before (l ++ [v]) u w → w ≠ v → before l u w.
Proof.
  intros (i & j & Hi & Hj & Hij) Hne. unfold pos in *. apply lookup_app_Some in Hj as [Hj|[_ Hj]].
  - exists i, j. unfold pos. split_and!; [|done|done]. rewrite lookup_app_l in Hi; [done|]. apply lookup_lt_Some in Hj. lia.
  - apply list_lookup_singleton_Some in Hj as [_ ->]. done.
Qed.
Lemma before_last (l : list N) u v : NoDup (l ++ [v]) → before (l ++ [v]) u v → u ∈ l.
Proof.
  intros Hnd Hb. pose proof (before_cons_inv _ _ _ Hb) as [Hu _]. apply elem_of_app in Hu as [?| ->%elem_of_list_singleton]; [done|].
  by apply ord_irrefl' in Hb.
Qed.

Lemma searched_snoc G l v : NoDup (l ++ [v]) → searched G l → (∃ u, u ∈ l ∧ adj G u v) ∨ (∀ u, u ∈ l → ¬ rtc (adj G) u v) → searched G (l ++ [v]).
Proof.
  intros Hnd Hs Hv w Hw. destruct (decide (w = v)) as [->|Hne].
  - destruct Hv as [(u & Hu & Ha)|Hno]; [left; exists u; split; [by apply before_snoc|done]|]. right. intros u Hb. by apply Hno, (before_last l u v).
  - apply elem_of_app in Hw as [Hw|Hw%elem_of_list_singleton]; [|done]. destruct (Hs w Hw) as [(u & Hb & Ha)|Hno].
    + left. exists u. split; [by apply before_app|done].
    + right. intros u Hb%before_unsnoc; [by apply Hno|done].
Qed.
Lemma search_order G : graph_wf G → ∃ l, NoDup l ∧ (∀ v, v ∈ l ↔ vtx G v) ∧ searched G l.
Proof.
  intros Hwf. assert (∀ k l, NoDup l → (∀ v, v ∈ l → vtx G v) → searched G l → length (vertices G) = length l + k →
    ∃ l, NoDup l ∧ (∀ v, v ∈ l ↔ vtx G v) ∧ searched G l) as Hgo.
  2: { apply (Hgo (length (vertices G)) []); [constructor|set_solver|intros v; set_solver|done]. }
  induction k as [|k IH]; intros l Hnd Hin Hs Hk.
  - exists l. split_and!; [done| |done]. intros v. split; [apply Hin|]. intros Hv%(wf_vertices _ Hwf).
    assert (l ≡ₚ vertices G) as ->; [|done]. apply submseteq_Permutation_length_le; [lia|]. apply NoDup_submseteq; [done|].
    intros x Hx. apply (wf_vertices _ Hwf). by apply Hin.
  - assert (∃ v, vtx G v ∧ v ∉ l ∧ ((∃ u, u ∈ l ∧ adj G u v) ∨ (∀ u, u ∈ l → ¬ rtc (adj G) u v))) as (v & Hv & Hvl & Hor).
    { destruct (filter (λ v, v ∉ l ∧ Exists (λ u, adj G u v) l) (vertices G)) as [|v cs] eqn:E.
      - assert (∀ a b, a ∈ l → b ∉ l → ¬ adj G a b) as Hno.
        { intros a b Ha Hb Hab. assert (b ∈ filter (λ v, v ∉ l ∧ Exists (λ u, adj G u v) l) (vertices G)) as Hx; [|rewrite E in Hx; set_solver].
          apply elem_of_list_filter. split; [split; [done|apply Exists_exists; by exists a]|]. apply (wf_vertices _ Hwf). apply (wf_adj_sym _ Hwf) in Hab. by eapply (wf_adj_vtx _ Hwf). }
        destruct (filter (λ v, v ∉ l) (vertices G)) as [|v cs] eqn:E2.
        + exfalso. assert (vertices G ⊆+ l) as Hsub%submseteq_length; [|lia]. apply NoDup_submseteq; [apply Hwf|]. intros x Hx.
          destruct (decide (x ∈ l)) as [?|Hn]; [done|]. assert (x ∈ filter (λ v, v ∉ l) (vertices G)) as Hx2 by (by apply elem_of_list_filter).
          rewrite E2 in Hx2. set_solver.
        + assert (v ∈ filter (λ v, v ∉ l) (vertices G)) as [Hvl Hv]%elem_of_list_filter by (rewrite E2; by left). exists v.
          split_and!; [by apply (wf_vertices _ Hwf)|done|]. right. intros u Hu Huv. destruct (rtc_crosses _ l u v Huv Hu Hvl) as (a & b & ? & ? & Hab & _). by apply (Hno a b).
      - assert (v ∈ filter (λ v, v ∉ l ∧ Exists (λ u, adj G u v) l) (vertices G)) as [[Hvl Hex] Hv]%elem_of_list_filter by (rewrite E; by left).
        exists v. split_and!; [by apply (wf_vertices _ Hwf)|done|]. left. by apply Exists_exists. }
    assert (NoDup (l ++ [v])) as Hnd'.
    { apply NoDup_app. split_and!; [done| |apply NoDup_singleton]. intros x Hx ->%elem_of_list_singleton. done. }
    apply (IH (l ++ [v])); [done| | |].
    + intros x [Hx| ->%elem_of_list_singleton]%elem_of_app; [by apply Hin|done].
    + by apply searched_snoc.
    + rewrite app_length. cbn. lia.
Qed.

Section forest.
Context {Hi : HashIter}.
(** The left degrees for an order add up to the number of edges. *)
Lemma left_count (G : graph) (l : list N) : graph_wf G → loopless G → NoDup l → (∀ v, v ∈ l ↔ vtx G v) →
  ∃ ld : N → nat, (∀ v, vtx G v → ∃ ls, NoDup ls ∧ length ls = ld v ∧ ∀ u, u ∈ ls ↔ adj G v u ∧ before l u v) ∧ sum_list_with ld l = num_edges G.
Proof.
  intros Hwf Hl Hnd Hin. destruct (C34_with_ordering G l Hwf Hl Hnd) as (g & Hok & Hlw & Hvs & Hnv & Hne & Hc & Ha & _ & _ & Hn).
  { intros u v Huv. apply Hin. by eapply (wf_adj_vtx _ Hwf). }
  destruct (C105_degree_sum_linear (og_lgraph g) Hlw) as (ld & d & Hld & Hs & _). exists ld. split.
  - intros v Hv. apply Hin in Hv as Hvl. destruct (Hn v Hvl) as (ls & rs & E & _ & Hls & _ & Ed & _). exists ls.
    destruct (Hld v) as [Hld' _]; [by apply Hc|]. rewrite Ed in Hld'. injection Hld' as Hlen. split_and!; [by eapply lists_in_order_NoDup|done|apply Hls].
  - change (vertices (og_lgraph g)) with (vertices (og_graph g)) in Hs. rewrite Hvs in Hs. rewrite Hs. exact Hne.
Qed.

Lemma length_inj {A B} (f : A → B) (l : list A) (k : list B) : NoDup l → (∀ x y, x ∈ l → y ∈ l → f x = f y → x = y) → (∀ x, x ∈ l → f x ∈ k) → length l ≤ length k.
Proof.
  intros Hnd Hinj Hin. rewrite <- (fmap_length f). apply submseteq_length, NoDup_submseteq; [by apply NoDup_fmap_2_strong|].
  intros y (x & -> & Hx)%elem_of_list_fmap. by apply Hin.
Qed.
Lemma sum_roots (ld : N → nat) l : length l + sum_list_with (λ v, pred (ld v)) l = sum_list_with ld l + length (filter (λ v, ld v = 0) l).
Proof. induction l as [|v l IH]; [done|]. cbn [sum_list_with length]. rewrite filter_cons. case_decide; cbn [length]; lia. Qed.

(** In a searched order there are at most as many vertices without an earlier neighbour as components. *)
Lemma searched_roots (G : graph) l (ld : N → nat) cs : graph_wf G → NoDup l → (∀ v, v ∈ l ↔ vtx G v) → searched G l →
  (∀ v, vtx G v → ∃ ls, NoDup ls ∧ length ls = ld v ∧ ∀ u, u ∈ ls ↔ adj G v u ∧ before l u v) → components G = Ok cs →
  length (filter (λ v, ld v = 0) l) ≤ length cs.
Proof.
  intros Hwf Hnd Hin Hs Hld Ecs. destruct (C22_components G Hwf) as (cs' & E & _ & _ & Hdj & Hv & Hr). rewrite Ecs in E. injection E as <-.
  set (f := λ v : N, match list_find (λ X : gset N, v ∈ X) cs with Some (_, X) => X | None => ∅ end).
  assert (∀ v, vtx G v → f v ∈ cs ∧ v ∈ f v) as Hf.
  { intros v (X & HX & HvX)%Hv. unfold f. destruct (list_find (λ X : gset N, v ∈ X) cs) as [[i Y]|] eqn:E.
    - apply list_find_Some in E as (E & HY & _). split; [by eapply elem_of_list_lookup_2|done].
    - apply list_find_None in E. rewrite Forall_forall in E. by destruct (E X). }
  assert (∀ v u, vtx G v → ld v = 0 → before l u v → ¬ rtc (adj G) u v) as Hroot.
  { intros v u Hvx H0 Hb. destruct (Hs v) as [(w & Hw & Ha)|Hno]; [by apply Hin| |by apply Hno]. destruct (Hld v Hvx) as (ls & _ & Hlen & Hls).
    rewrite H0 in Hlen. destruct ls; [|done]. exfalso. assert (w ∈ []) as Hx by (apply Hls; split; [by apply (wf_adj_sym _ Hwf)|done]). set_solver. }
  apply (length_inj f); [by apply NoDup_filter| |].
  - intros x y [Hx0 Hx%Hin]%elem_of_list_filter [Hy0 Hy%Hin]%elem_of_list_filter Exy. destruct (decide (x = y)) as [?|Hne]; [done|]. exfalso.
    destruct (Hf x Hx) as [Hfx Hxf]. destruct (Hf y Hy) as [_ Hyf]. rewrite <- Exy in Hyf.
    destruct (ord_total l x y) as [Hb|Hb]; [by apply Hin|by apply Hin|done| |].
    + apply (Hroot y x Hy Hy0 Hb). apply (Hr x y Hx). eauto.
    + apply (Hroot x y Hx Hx0 Hb). apply (Hr y x Hy). eauto.
  - intros x [_ Hx%Hin]%elem_of_list_filter. by apply Hf.
Qed.
(** In every order the first vertex of each component has no earlier neighbour. *)
Lemma order_roots (G : graph) l (ld : N → nat) cs : graph_wf G → NoDup l → (∀ v, v ∈ l ↔ vtx G v) →
  (∀ v, vtx G v → ∃ ls, NoDup ls ∧ length ls = ld v ∧ ∀ u, u ∈ ls ↔ adj G v u ∧ before l u v) → components G = Ok cs →
  length cs ≤ length (filter (λ v, ld v = 0) l).
Proof.
  intros Hwf Hnd Hin Hld Ecs. destruct (C22_components G Hwf) as (cs' & E & Hcn & Hne & Hdj & Hv & Hr). rewrite Ecs in E. injection E as <-.
  set (f := λ X : gset N, match list_find (λ v, v ∈ X) l with Some (_, v) => v | None => 0%N end).
  assert (∀ X, X ∈ cs → f X ∈ X ∧ f X ∈ l ∧ ∀ u, before l u (f X) → u ∉ X) as Hf.
  { intros X HX. unfold f. destruct (list_find (λ v, v ∈ X) l) as [[i v]|] eqn:E.
    - apply list_find_Some in E as (E & HvX & Hfirst). split_and!; [done|by eapply elem_of_list_lookup_2|].
      intros u (a & b & Ha & Hb & Hab). unfold pos in *. pose proof (NoDup_lookup _ _ _ _ Hnd Hb E) as ->. by apply (Hfirst a u).
    - exfalso. apply list_find_None in E. rewrite Forall_forall in E. destruct (set_choose_L X (Hne X HX)) as [v HvX]. apply (E v); [|done].
      apply Hin, Hv. eauto. }
  apply (length_inj f); [done| |].
  - intros X Y HX HY E. destruct (decide (X = Y)) as [?|Hn]; [done|]. exfalso. destruct (Hf X HX) as [H1 _]. destruct (Hf Y HY) as [H2 _].
    rewrite <- E in H2. exact (Hdj X Y HX HY Hn (f X) H1 H2).
  - intros X HX. destruct (Hf X HX) as (H1 & H2 & H3). apply elem_of_list_filter. split; [|done]. apply Hin in H2 as H2'.
    destruct (Hld (f X) H2') as (ls & _ & <- & Hls). destruct ls as [|u ls]; [done|]. exfalso. destruct (proj1 (Hls u)) as [Ha Hb]; [by left|].
    apply (H3 u Hb). assert (rtc (adj G) (f X) u) as Hx by (by apply rtc_once). apply (Hr (f X) u H2') in Hx as (Z & HZ & HfZ & HuZ).
    destruct (decide (Z = X)) as [->|Hn]; [done|]. destruct (Hdj Z X HZ HX Hn (f X) HfZ H1).
Qed.

(** An order with at most [d] earlier neighbours everywhere bounds the minimum degrees of subgraphs. *)
Lemma order_bound (G : graph) l d : graph_wf G → loopless G → NoDup l → (∀ v, v ∈ l ↔ vtx G v) →
  (∀ v ls, vtx G v → NoDup ls → (∀ u, u ∈ ls → adj G v u ∧ before l u v) → length ls ≤ d) → ∀ H k, H ≠ ∅ → min_degree G H k → k ≤ d.
Proof.
  intros Hwf Hl Hnd Hin Hd H k HH Hm. apply set_choose_L in HH as [a Ha].
  assert (∃ v, v ∈ H ∧ ∀ u, u ∈ H → u ≠ v → before l u v) as (v & Hv & Hlast).
  { assert (∀ l', l' `prefix_of` l → (∃ a, a ∈ H ∧ a ∈ l') → ∃ v, v ∈ H ∧ v ∈ l' ∧ ∀ u, u ∈ H → u ∈ l' → u ≠ v → before l u v) as Hgo.
    { induction l' as [|w l' IH] using rev_ind; intros [rest Hp] (b & Hb & Hbl); [set_solver|]. destruct (decide (w ∈ H)) as [Hw|Hw].
      - exists w. split_and!; [done|set_solver|]. intros u Hu [Hul| ->%elem_of_list_singleton]%elem_of_app Hne; [|done]. rewrite Hp.
        apply before_app. by apply before_snoc.
      - destruct IH as (v & Hv & Hvl & Hlast).
        + exists ([w] ++ rest). by rewrite Hp, <- app_assoc.
        + exists b. split; [done|]. apply elem_of_app in Hbl as [?| ->%elem_of_list_singleton]; done.
        + exists v. split_and!; [done|by apply elem_of_app; left|]. intros u Hu [Hul| ->%elem_of_list_singleton]%elem_of_app; [by apply Hlast|done]. }
    destruct (Hgo l) as (v & Hv & _ & Hlast); [done|exists a; split; [done|]; apply Hin; apply (Hm a Ha)|]. exists v. split; [done|]. intros u Hu Hne.
    apply Hlast; [done| |done]. apply Hin. apply (Hm u Hu). }
  destruct (Hm v Hv) as (Hvv & ls & Hnd' & Hlen & Hls). etrans; [exact Hlen|]. apply (Hd v ls Hvv Hnd'). intros u Hu. destruct (Hls u Hu) as [HuH Ha'].
  split; [done|]. apply Hlast; [done|]. intros ->. by apply (Hl v).
Qed.

(** A graph with an order in which no vertex has two earlier neighbours is two-colourable. *)
Lemma forest_colouring (G : graph) l : graph_wf G → loopless G → NoDup l →
  (∀ v u u', v ∈ l → adj G u v → adj G u' v → before l u v → before l u' v → u = u') →
  ∃ f : N → bool, ∀ u v, u ∈ l → v ∈ l → adj G u v → f u ≠ f v.
Proof.
  intros Hwf Hl. induction l as [|v l IH] using rev_ind; intros Hnd Huniq; [exists (λ _, true); set_solver|].
  pose proof Hnd as Hnd0. apply NoDup_app in Hnd0 as (Hnd' & Hvl & _). assert (v ∉ l) as Hv by (intros Hx; apply (Hvl v Hx); by left).
  destruct IH as [f Hf]; [done| |].
  { intros w u u' Hw Ha Ha' Hb Hb'. apply (Huniq w u u'); [by apply elem_of_app; left|done|done|by apply before_app|by apply before_app]. }
  set (b := match filter (λ u, adj G u v) l with [] => true | u :: _ => negb (f u) end).
  assert (∀ u, u ∈ l → adj G u v → f u = negb b) as Hb.
  { intros u Hu Ha. unfold b. destruct (filter (λ u, adj G u v) l) as [|w ws] eqn:E.
    - assert (u ∈ filter (λ u, adj G u v) l) as Hx by (by apply elem_of_list_filter). rewrite E in Hx. set_solver.
    - assert (w ∈ filter (λ u, adj G u v) l) as [Hwa Hwl]%elem_of_list_filter by (rewrite E; by left). rewrite negb_involutive. f_equal.
      apply (Huniq v u w); [by apply elem_of_app; right; left|done|done|by apply before_snoc|by apply before_snoc]. }
  exists (λ x, if decide (x = v) then b else f x). intros x y Hx Hy Hxy. destruct (decide (x = v)) as [->|Hxv], (decide (y = v)) as [->|Hyv].
  - by destruct (Hl v).
  - assert (y ∈ l) as Hyl by (apply elem_of_app in Hy as [?|?%elem_of_list_singleton]; done). rewrite (Hb y Hyl) by (by apply (wf_adj_sym _ Hwf)). by destruct b.
  - assert (x ∈ l) as Hxl by (apply elem_of_app in Hx as [?|?%elem_of_list_singleton]; done). rewrite (Hb x Hxl Hxy). by destruct b.
  - apply Hf; [| |done].
    + apply elem_of_app in Hx as [?|?%elem_of_list_singleton]; done.
    + apply elem_of_app in Hy as [?|?%elem_of_list_singleton]; done.
Qed.
End forest.
