(** count_max_cliques is right if non-adjacency is transitive on every left neighbourhood. *)
From Verif Require Import Base Spec M_Graph M_Iterators M_OrdGraph M_Linear S_Graph S_Linear S_Cliques
  P_Graph P_OrdGraph P_OrdGraph2 P_DegenGraph P_Linear P_Cliques.

(** [C] is a maximal clique within the list [vs] (empty if [vs] is). *)
Definition mc (G : graph) (vs : list N) (C : gset N) : Prop :=
  (∀ x, x ∈ C → x ∈ vs) ∧ clique G C ∧ ∀ y, y ∈ vs → y ∉ C → ∃ x, x ∈ C ∧ ¬ adj G y x.
Definition cocluster (G : graph) (vs : list N) : Prop := ∀ x y z, x ∈ vs → y ∈ vs → z ∈ vs →
  ¬ adj G x y → ¬ adj G y z → ¬ adj G x z.

Section with_wf.
Context (L : lgraph) (HL : lgraph_wf L).
Let HW := lwf_graph L HL.
Let sym x y : adj L x y → adj L y x := wf_adj_sym L HW x y.
Let loopfree x : ¬ adj L x x := lwf_loopless L HL x.
Let adj_dec x y : Decision (adj L x y) := ltac:(unfold adj; apply _).

Lemma mc_nil C : mc L [] C ↔ C = ∅.
Proof.
  split.
  - intros (H & _). apply set_eq. intros x. split; [|set_solver]. intros Hx%H. set_solver.
  - intros ->. split_and!; [set_solver|intros x y Hx; set_solver|set_solver].
Qed.

Lemma mc_step vs u C : cocluster L (vs ++ [u]) →
  mc L (vs ++ [u]) C ↔ ∃ w C', w ∈ vs ++ [u] ∧ ¬ adj L u w ∧ mc L (filter (λ x, adjacent L u x = true) vs) C' ∧ C = {[w]} ∪ C'.
Proof.
  intros Hco. assert (∀ x, x ∈ filter (λ x, adjacent L u x = true) vs ↔ adj L u x ∧ x ∈ vs ++ [u]) as Hleft.
  { intros x. rewrite elem_of_list_filter, elem_of_app, elem_of_list_singleton. fold (adj L u x). split; [tauto|].
    intros [Ha [?| ->]]; [done|]. by apply loopfree in Ha. }
  assert (u ∈ vs ++ [u]) as Hu by set_solver. split.
  - intros (Hs & Hcl & Hm).
    assert (∃ w, w ∈ C ∧ ¬ adj L u w) as (w & Hw & Hnw).
    { destruct (decide (u ∈ C)) as [HuC|HuC]; [by exists u|]. by apply Hm. }
    exists w, (C ∖ {[w]}). split_and!; [by apply Hs|done| |].
    + split_and!.
      * intros x [Hx Hxw]%elem_of_difference. apply Hleft. split; [|by apply Hs].
        destruct (decide (adj L u x)) as [|Hn]; [done|]. exfalso.
        apply (Hco w u x); [by apply Hs|done|by apply Hs|by intros ?%sym|done|]. apply Hcl; [done|done|set_solver].
      * intros x y Hx Hy. apply Hcl; set_solver.
      * intros y [Hay Hy]%Hleft Hn. assert (y ≠ w) as Hyw by (intros ->; done).
        destruct (Hm y Hy) as (x & Hx & Hna); [set_solver|]. exists x. split; [|done]. apply elem_of_difference. split; [done|].
        rewrite elem_of_singleton. intros ->. apply (Hco y w u); [done|by apply Hs|done|done|by intros ?%sym|by apply sym].
    + apply set_eq. intros x. rewrite elem_of_union, elem_of_difference, elem_of_singleton.
      destruct (decide (x = w)) as [->|]; [by intuition|tauto].
  - intros (w & C' & Hw & Hnw & (Hs & Hcl & Hm) & ->).
    assert (∀ x, x ∈ C' → adj L w x) as Hwx.
    { intros x Hx. apply Hs, Hleft in Hx as [Ha Hx]. destruct (decide (adj L w x)) as [|Hn]; [done|]. exfalso.
      by apply (Hco u w x). }
    split_and!.
    + intros x. rewrite elem_of_union, elem_of_singleton. intros [->|Hx]; [done|]. by apply Hs, Hleft in Hx as [_ ?].
    + intros x y. rewrite !elem_of_union, !elem_of_singleton. intros [->|Hx] [->|Hy] Hne; [done|by apply Hwx|apply sym; by apply Hwx|by apply Hcl].
    + intros y Hy Hn. destruct (decide (adj L u y)) as [Ha|Ha].
      * destruct (Hm y) as (x & Hx & Hna); [by apply Hleft|set_solver|]. exists x. split; [set_solver|done].
      * exists w. split; [set_solver|]. apply (Hco y u w); [done|done|done|by intros ?%sym|done].
Qed.

(** What a sequence of reports leaves in the set of results. *)
Definition after (v : N) (Rep : gset N → Prop) (results r : gset (gset N)) : Prop :=
  ∀ X, X ∈ r ↔ Rep X ∨ X ∈ results ∧ ¬ ∃ Y, Rep Y ∧ 1 < size Y ∧ X = Y ∖ {[v]}.

Lemma after_report v X results : v ∈ X → after v (λ Y, Y = X) results (bk_report v X results).
Proof.
  intros Hv Z. unfold bk_report. assert (X ≠ X ∖ {[v]}) as Hne by set_solver. destruct (Nat.ltb_spec 1 (size X)) as [Hs|Hs].
  - rewrite elem_of_difference, elem_of_union, !elem_of_singleton. split.
    + intros [[->|HZ] Hn]; [by left|]. right. split; [done|]. by intros (Y & -> & _ & ->).
    + intros [->|[HZ Hn]]; [by auto|]. split; [by right|]. intros ->. apply Hn. eauto.
  - rewrite elem_of_union, elem_of_singleton. split.
    + intros [->|HZ]; [by left|]. right. split; [done|]. intros (Y & -> & ? & _). lia.
    + intros [->|[HZ _]]; [by left|by right].
Qed.
Lemma after_trans v (R1 R2 : gset N → Prop) s0 s1 s2 : (∀ X, R1 X → v ∈ X) → (∀ X, R2 X → v ∈ X) →
  after v R1 s0 s1 → after v R2 s1 s2 → after v (λ X, R1 X ∨ R2 X) s0 s2.
Proof.
  intros H1 H2 Ha Hb X. rewrite (Hb X), (Ha X). split.
  - intros [HX|[[HX|[HX Hn1]] Hn2]]; [by left; right|by left; left|]. right. split; [done|].
    intros (Y & [HY|HY] & Hs & ->); [apply Hn1; eauto|apply Hn2; eauto].
  - intros [[HX|HX]|[HX Hn]].
    + right. split; [by left|]. intros (Y & _ & _ & ->). apply H1 in HX. set_solver.
    + by left.
    + right. split; [right; split; [done|]|]; intros (Y & HY & Hs & ->); apply Hn; eauto.
Qed.
Lemma after_ext v (R1 R2 : gset N → Prop) s0 s1 : (∀ X, R1 X ↔ R2 X) → after v R1 s0 s1 → after v R2 s0 s1.
Proof. intros H Ha X. rewrite (Ha X), H. by setoid_rewrite H. Qed.

Lemma bk_multi v : ∀ fuel vs include results, length vs < fuel → NoDup vs → cocluster L vs → v ∈ include → (∀ x, x ∈ vs → x ∉ include) →
  ∃ r, bk_pivot_count fuel L v vs include (list_to_set vs) ∅ results = Ok r ∧
    after v (λ X, ∃ C, mc L vs C ∧ X = include ∪ C) results r.
Proof.
  induction fuel as [|fuel IH]; intros vs include results Hlen Hnd Hco Hv Hdis; [lia|]. cbn [bk_pivot_count].
  destruct vs as [|u vs _] using rev_ind.
  { cbn. eexists. split; [done|]. eapply after_ext; [|by apply after_report]. intros X. cbn beta. setoid_rewrite mc_nil. split.
    - intros ->. exists ∅. split; [done|]. by rewrite union_empty_r_L.
    - intros (C & -> & ->). by rewrite union_empty_r_L. }
  rewrite app_length in Hlen. cbn in Hlen. rewrite bool_decide_false by set_solver. cbn [andb].
  rewrite bk_pivot_snoc by set_solver. cbn [unwrap mbind res_bind].
  rewrite take_app. set (left := filter _ vs). set (ls := list_to_set left : gset N).
  rewrite (take_ge (vs ++ [u]) (S (length vs))) by (rewrite app_length; cbn; lia).
  assert (∀ x, x ∈ left ↔ adj L u x ∧ x ∈ vs) as Hleft by (intros x; unfold left; by rewrite elem_of_list_filter).
  apply NoDup_app in Hnd as Hnd'. destruct Hnd' as (Hndv & Hu & _).
  assert (length left ≤ length vs) as Hll by apply filter_length.
  assert (∀ w, w ∈ vs ++ [u] → w ∈ ls ↔ adj L u w) as Hls.
  { intros w Hw. unfold ls. rewrite elem_of_list_to_set, Hleft. split; [tauto|]. intros Ha. split; [done|].
    apply elem_of_app in Hw as [?|Hw]; [done|]. apply elem_of_list_singleton in Hw as ->. by apply loopfree in Ha. }
  assert (ls ⊆ list_to_set (vs ++ [u])) as Hlsub by (unfold ls; intros x; rewrite !elem_of_list_to_set, Hleft; set_solver).
  match goal with |- ∃ r, (fold_res ?f _ _ ≫= _) = _ ∧ _ =>
    assert (∀ l rs mb ex, NoDup l → (∀ x, x ∈ l → x ∈ vs ++ [u] ∧ x ∈ mb) → ls ⊆ mb → ex ∩ ls = ∅ → ∃ mb' ex' r,
      fold_res f l (include, mb, ex, rs) = Ok (include, mb', ex', r) ∧
      after v (λ X, ∃ w C, w ∈ l ∧ ¬ adj L u w ∧ mc L left C ∧ X = include ∪ ({[w]} ∪ C)) rs r) as HH end.
  { induction l as [|w l IHl]; intros rs mb ex Hnl Hl Hmb Hex; cbn [fold_res].
    { exists mb, ex, rs. split; [done|]. intros X. split; [|by intros [(w & C & Hw & _)|[? _]]; [apply elem_of_nil in Hw|]].
      intros HX. right. split; [done|]. intros (Y & (w & C & Hw & _) & _). by apply elem_of_nil in Hw. }
    apply NoDup_cons in Hnl as [Hwl Hnl]. destruct (Hl w) as [Hwv Hwm]; [left|].
    rewrite (bool_decide_true (w ∈ mb)) by done. cbn [negb orb]. pose proof (Hls w Hwv) as Hlw. destruct (bool_decide (w ∈ ls)) eqn:E.
    - apply bool_decide_eq_true in E. apply Hlw in E. cbn [mbind res_bind].
      destruct (IHl rs mb ex Hnl) as (mb' & ex' & r & Hf & Ha); [intros x Hx; apply Hl; by right|done|done|].
      exists mb', ex', r. split; [exact Hf|]. eapply after_ext; [|exact Ha]. intros X. cbn beta. split.
      + intros (y & C & Hy & Hn & HC & ->). exists y, C. split_and!; [by right|done|done|done].
      + intros (y & C & [->|Hy]%elem_of_cons & Hn & HC & ->); [done|]. exists y, C. done.
    - apply bool_decide_eq_false in E. rewrite Hlw in E.
      assert (mb ∩ ls = ls) as -> by set_solver. rewrite Hex.
      destruct (IH left ({[w]} ∪ include) rs) as (r1 & Hbk & Hr1); [lia|by apply NoDup_filter| |set_solver| |].
      { intros x y z [_ ?]%Hleft [_ ?]%Hleft [_ ?]%Hleft. apply Hco; set_solver. }
      { intros x [Hax Hx]%Hleft. rewrite not_elem_of_union, not_elem_of_singleton. split; [intros ->; done|]. apply Hdis. set_solver. }
      fold ls in Hbk. rewrite Hbk. cbn [mbind res_bind]. assert (({[w]} ∪ include) ∖ {[w]} = include) as -> by (specialize (Hdis w Hwv); set_solver).
      assert (w ∉ ls) as Hwls by (by rewrite Hlw).
      destruct (IHl r1 (mb ∖ {[w]}) ({[w]} ∪ ex) Hnl) as (mb' & ex' & r & Hf & Ha).
      { intros x Hx. destruct (Hl x); [by right|]. split; [done|]. apply elem_of_difference. split; [done|]. rewrite elem_of_singleton. by intros ->. }
      { set_solver. }
      { set_solver. }
      exists mb', ex', r. split; [exact Hf|]. eapply after_ext; [|eapply after_trans; [| |exact Hr1|exact Ha]].
      + intros X. cbn beta. split.
        * intros [(C & HC & ->)|(y & C & Hy & Hn & HC & ->)].
          -- exists w, C. split_and!; [by left|done|done|set_solver].
          -- exists y, C. split_and!; [by right|done|done|done].
        * intros (y & C & [->|Hy]%elem_of_cons & Hn & HC & ->); [left; exists C; split; [done|set_solver]|right; exists y, C; done].
      + intros X (C & _ & ->). set_solver.
      + intros X (y & C & _ & _ & _ & ->). set_solver. }
  destruct (HH (reverse (vs ++ [u])) results (list_to_set (vs ++ [u])) ∅) as (mb' & ex' & r & -> & Ha).
  { by rewrite reverse_Permutation. }
  { intros x. rewrite elem_of_reverse, elem_of_list_to_set. done. }
  { done. }
  { set_solver. }
  cbn [mbind res_bind]. exists r. split; [done|]. eapply after_ext; [|exact Ha]. intros X. cbn beta. setoid_rewrite (mc_step vs u _ Hco). split.
  - intros (w & C & Hw & Hn & HC & ->). exists ({[w]} ∪ C). split; [|done]. exists w, C. split_and!; [by rewrite <- elem_of_reverse|done|done|done].
  - intros (_ & (w & C & Hw & Hn & HC & ->) & ->). exists w, C. split_and!; [by rewrite elem_of_reverse|done|done|done].
Qed.

(** The new maximal cliques, when [v] is added to the subgraph induced by [P]. *)
Lemma step_new (P : N → Prop) v (ns : list N) X : ¬ P v → (∀ x, x ∈ ns ↔ P x ∧ adj L v x) → v ∈ X →
  max_clique_in L (λ x, P x ∨ x = v) X ↔ ∃ C, mc L ns C ∧ X = {[v]} ∪ C.
Proof.
  intros HPv Hns Hv. split.
  - intros (_ & Hs & Hcl & Hm). exists (X ∖ {[v]}). split.
    + split_and!.
      * intros x [Hx Hxv]%elem_of_difference. rewrite elem_of_singleton in Hxv. apply Hns. split; [by destruct (Hs x Hx)|]. apply Hcl; [done|done|congruence].
      * intros x y Hx Hy. apply Hcl; set_solver.
      * intros y [Hy Hay]%Hns Hn. assert (y ≠ v) as Hyv by (intros ->; done). destruct (Hm y) as (x & Hx & Hna); [by left|set_solver|].
        exists x. split; [|done]. apply elem_of_difference. split; [done|]. rewrite elem_of_singleton. intros ->. by apply Hna, sym.
    + apply set_eq. intros x. rewrite elem_of_union, elem_of_difference, elem_of_singleton. destruct (decide (x = v)) as [->|]; [by intuition|tauto].
  - intros (C & (Hs & Hcl & Hm) & ->). split_and!.
    + set_solver.
    + intros x. rewrite elem_of_union, elem_of_singleton. intros [->|Hx]; [by right|]. apply Hs, Hns in Hx as [? _]. by left.
    + intros x y. rewrite !elem_of_union, !elem_of_singleton. intros [->|Hx] [->|Hy] Hne; [done| | |by apply Hcl].
      * by apply Hs, Hns in Hy as [_ ?].
      * apply sym. by apply Hs, Hns in Hx as [_ ?].
    + intros y [Hy| ->] Hn; [|set_solver]. destruct (decide (adj L v y)) as [Ha|Ha].
      * destruct (Hm y) as (x & Hx & Hna); [by apply Hns|set_solver|]. exists x. split; [set_solver|done].
      * exists v. split; [set_solver|]. by intros ?%sym.
Qed.

Lemma count_multi : (∀ v x y z, (adj L v x ∧ before (vertices L) x v) → (adj L v y ∧ before (vertices L) y v) →
    (adj L v z ∧ before (vertices L) z v) → ¬ adj L x y → ¬ adj L y z → ¬ adj L x z) →
  ∃ K : gset (gset N), count_max_cliques L = Ok (size K) ∧ ∀ X, X ∈ K ↔ max_clique L X.
Proof.
  intros Hmul. unfold count_max_cliques.
  match goal with |- ∃ K, (fold_res ?f ?l ?s ≫= _) = _ ∧ _ =>
    destruct (fold_res_inv f (λ pre K, ∀ X, X ∈ K ↔ max_clique_in L (λ x, x ∈ pre) X) l s) as (K & -> & HK) end.
  - intros X. split; [set_solver|]. intros (Hne & Hs & _). apply set_choose_L in Hne as [x Hx]. apply Hs in Hx. set_solver.
  - intros l1 v l2 rs Hl Hrs. assert (vtx L v) as Hv by (apply (vs_vtx L HL); rewrite Hl; set_solver).
    destruct (lwf_left L HL v Hv) as (ns & Hns & Hlo). rewrite Hns. cbn [mbind res_bind].
    pose proof (vs_nodup L HL) as Hnd.
    pose proof (lists_in_order_NoDup _ _ _ Hnd Hlo) as Hnns. destruct Hlo as [Hlo _].
    assert (v ∉ l1) as Hvl.
    { rewrite Hl in Hnd. apply NoDup_app in Hnd as (_ & Hnd & _). intros Hin. apply (Hnd v Hin). set_solver. }
    assert (∀ x, x ∈ ns ↔ x ∈ l1 ∧ adj L v x) as Hns'.
    { intros x. rewrite Hlo, Hl. rewrite Hl in Hnd.
      assert (adj L v x → before (l1 ++ v :: l2) x v ↔ x ∈ l1) as Hb; [|tauto].
      intros _. split.
      - intros (i & j & Hi & Hj & Hij). unfold pos in *.
        assert (j = length l1) as ->.
        { eapply NoDup_lookup; [exact Hnd|exact Hj|]. by apply list_lookup_middle. }
        rewrite lookup_app_l in Hi by done. by eapply elem_of_list_lookup_2.
      - intros [i Hi]%elem_of_list_lookup. exists i, (length l1). apply lookup_lt_Some in Hi as Hlt.
        split_and!; [by apply lookup_app_l_Some|by apply list_lookup_middle|done]. }
    assert (v ∉ ns) as Hvns by (by intros [? _]%Hns').
    destruct (bk_multi v (S (length ns)) ns {[v]} rs) as (r & -> & Ha); [lia|done| |set_solver|intros x Hx; rewrite elem_of_singleton; by intros ->|].
    { intros x y z Hx%Hlo Hy%Hlo Hz%Hlo. by apply (Hmul v). }
    exists r. split; [done|]. intros X. rewrite (Ha X).
    assert (max_clique_in L (λ x, x ∈ l1 ++ [v]) X ↔ max_clique_in L (λ x, x ∈ l1 ∨ x = v) X) as ->.
    { unfold max_clique_in. setoid_rewrite elem_of_app. setoid_rewrite elem_of_list_singleton. done. }
    destruct (decide (v ∈ X)) as [HvX|HvX].
    + rewrite (step_new (λ x, x ∈ l1) v ns X Hvl Hns' HvX). split; [|by left]. intros [?|[HX _]]; [done|]. exfalso. apply Hrs in HX as (_ & Hs & _). by apply Hvl, Hs.
    + rewrite (step_old L (λ x, x ∈ l1) v (list_to_set ns) (λ x, iff_trans (elem_of_list_to_set x ns) (Hns' x)) X HvX), Hrs. split.
      * intros [(C & _ & ->)|[HX Hn]]; [set_solver|]. split; [done|]. intros Hsub. apply Hn. exists ({[v]} ∪ X). destruct HX as (Hne & Hs & Hcl & Hm). split_and!.
        -- exists X. split; [|done]. split_and!; [intros x Hx; apply Hsub in Hx; by apply elem_of_list_to_set in Hx|done|].
           intros y [Hy _]%Hns' Hn2. by apply Hm.
        -- rewrite size_union by set_solver. rewrite size_singleton. assert (size X ≠ 0); [|lia]. by intros Hz%size_empty_inv%leibniz_equiv.
        -- set_solver.
      * intros [HX Hn]. right. split; [done|]. intros (_ & (C & (Hs & _) & ->) & _ & HXe). apply Hn. intros x Hx. apply elem_of_list_to_set, Hs. set_solver.
  - cbn [mbind res_bind]. exists K. split; [done|]. intros X. rewrite HK. unfold max_clique, max_clique_in.
    setoid_rewrite (vs_vtx L HL). done.
Qed.
End with_wf.
