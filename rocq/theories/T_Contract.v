(** Property theorem C110: contraction (editgraph.rs:483-530) and the answers of the algorithms: components (algorithms/graph.rs:41-64)
    and distances (graph.rs:319-380). *)
From Verif Require Import Base Spec M_Graph M_Iterators M_EditGraph M_Algorithms S_Graph
  P_EditGraph P_EditGraph2 P_Graph P_Determin2 P_Compose P_Counts P_Edits T_EditGraph T_Algorithms Examples.

(** Where a vertex goes when [X] is contracted into [c] (specification only: no function of editgraph.rs:511-530 computes it). *)
Definition goes (c : N) (X : list N) (x : N) : N := if bool_decide (x ∈ X) then c else x.

Section contraction.
Context {Hi : HashIter}.

Lemma goes_c c X : goes c X c = c.
Proof. unfold goes. by case_bool_decide. Qed.
Lemma contract_step g c X h : eg_reachable g → eg_contains g c = true → (∀ v, v ∈ X → eg_contains g v = true) → eg_contract_into g c X = Ok h →
  ∀ x y, adj (eg_graph g) x y → goes c X x = goes c X y ∨ adj (eg_graph h) (goes c X x) (goes c X y).
Proof.
  intros Rg Hc HX Eh x y Hxy. destruct (C09_contract_into g c X Rg Hc HX) as (h' & Eh' & Rh & HV & H1 & H2 & H3). rewrite Eh in Eh'. injection Eh' as <-.
  assert (adj (eg_graph g) y x) as Hyx by (by apply (wf_adj_sym _ (C10_reachable_wf g Rg))).
  destruct (decide (goes c X x = goes c X y)) as [?|Hne]; [by left|right].
  destruct (decide (goes c X x = c)) as [Ex|Ex].
  - rewrite Ex in Hne |- *. assert (y ∉ X ∧ goes c X y = y) as [Hy Ey].
    { unfold goes in Hne |- *. case_bool_decide; [done|done]. }
    rewrite Ey in Hne |- *. apply H2; [done|]. split; [done|]. exists x. split; [|exact Hxy]. unfold goes in Ex. case_bool_decide; [by right|by left].
  - assert (x ∉ X ∧ goes c X x = x) as [Hx Ex'].
    { unfold goes in Ex |- *. case_bool_decide; [done|done]. }
    rewrite Ex' in Ex, Hne |- *. destruct (decide (goes c X y = c)) as [Ey|Ey].
    + rewrite Ey. apply (wf_adj_sym _ (C10_reachable_wf h Rh)). apply H2; [done|]. split; [done|]. exists y. split; [|exact Hyx].
      unfold goes in Ey. case_bool_decide; [by right|by left].
    + assert (y ∉ X ∧ goes c X y = y) as [Hy Ey'].
      { unfold goes in Ey |- *. case_bool_decide; [done|done]. }
      rewrite Ey' in Ey |- *. apply H1; [done|done|]. split_and!; [done|done|exact Hxy].
Qed.
Lemma contract_steps g c X h n x y : eg_reachable g → eg_contains g c = true → (∀ v, v ∈ X → eg_contains g v = true) → eg_contract_into g c X = Ok h →
  nsteps (adj (eg_graph g)) n x y → ∃ m, m ≤ n ∧ nsteps (adj (eg_graph h)) m (goes c X x) (goes c X y).
Proof.
  intros Rg Hc HX Eh Hst. induction Hst as [x|n x z y Hxz _ (m & Hm & IH)]; [exists 0; split; [done|constructor]|].
  destruct (contract_step g c X h Rg Hc HX Eh x z Hxz) as [->|Hs]; [exists m; split; [lia|done]|]. exists (S m). split; [lia|]. by econstructor.
Qed.

(** Distances never grow: the ball around a vertex goes into the ball around where it goes. *)
Theorem C110_balls (g : editgraph) (c : N) (X : list N) (u : N) (r : nat) : eg_reachable g → eg_contains g c = true →
  (∀ v, v ∈ X → eg_contains g v = true) → eg_contains g u = true →
  ∃ h A B, eg_contract_into g c X = Ok h ∧ r_neighbours (eg_graph g) u r = Ok A ∧
    r_neighbours (eg_graph h) (if bool_decide (u ∈ X) then c else u) r = Ok B ∧
    ∀ v, v ∈ A → (v ∈ X → c ∈ B) ∧ (v ∉ X → v ∈ B).
Proof.
  intros Rg Hc HX Hu. destruct (C09_contract_into g c X Rg Hc HX) as (h & Eh & Rh & HV & _).
  destruct (C12_r_neighbours (eg_graph g) u r (C10_reachable_wf g Rg) Hu) as (A & HA & HsA).
  destruct (C12_r_neighbours (eg_graph h) (goes c X u) r (C10_reachable_wf h Rh)) as (B & HB & HsB).
  { apply HV. unfold goes. case_bool_decide; [split; [done|by left]|split; [done|by right]]. }
  exists h, A, B. split_and!; [done|done|exact HB|]. intros v (n & Hn & Hst)%HsA.
  destruct (contract_steps g c X h n u v Rg Hc HX Eh Hst) as (m & Hm & Hst'). assert (goes c X v ∈ B) as Hv by (apply HsB; exists m; split; [lia|done]).
  unfold goes in Hv. split; intros Hx; [by rewrite bool_decide_true in Hv|by rewrite bool_decide_false in Hv].
Qed.

(** Contracting vertices of one component only removes them from it: the number of components stays. *)
Theorem C110_components (g : editgraph) (c : N) (X : list N) (C0 : gset N) cs : eg_reachable g → components (eg_graph g) = Ok cs →
  C0 ∈ cs → c ∈ C0 → (∀ v, v ∈ X → v ∈ C0) →
  ∃ h cs', eg_contract_into g c X = Ok h ∧ components (eg_graph h) = Ok cs' ∧ cs' ≡ₚ ((λ C : gset N, C ∖ (list_to_set X ∖ {[c]})) <$> cs) ∧ length cs' = length cs.
Proof.
  intros Rg Ecs HC0 HcC HXC. pose proof (C10_reachable_wf g Rg) as Hwf. destruct (C22_components (eg_graph g) Hwf) as (cs1 & E1 & Hnd & Hne & Hdj & Hv & Hr).
  rewrite Ecs in E1. injection E1 as <-.
  assert (eg_contains g c = true) as Hc by (apply (proj2 (Hv c)); eauto).
  assert (∀ v, v ∈ X → eg_contains g v = true) as HX by (intros v Hx; apply (proj2 (Hv v)); eauto).
  destruct (C09_contract_into g c X Rg Hc HX) as (h & Eh & Rh & HV & H1 & H2 & H3). pose proof (C10_reachable_wf h Rh) as Hhw.
  set (F := λ C : gset N, C ∖ (list_to_set X ∖ {[c]})).
  assert (∀ C x, x ∈ F C ↔ x ∈ C ∧ (x = c ∨ x ∉ X)) as HF.
  { intros C x. unfold F. rewrite elem_of_difference, elem_of_difference, elem_of_list_to_set, elem_of_singleton. destruct (decide (x = c)), (decide (x ∈ X)); tauto. }
  assert (∀ C D x, C ∈ cs → D ∈ cs → x ∈ C → x ∈ D → C = D) as Hsame.
  { intros C D x HC HD HxC HxD. destruct (decide (C = D)) as [?|Hn]; [done|]. exfalso. exact (Hdj C D HC HD Hn x HxC HxD). }
  assert (∀ C, C ∈ cs → ∃ x, x ∈ F C) as HFne.
  { intros C HC. destruct (decide (C = C0)) as [->|Hn]; [exists c; apply HF; split; [done|by left]|].
    destruct (set_choose_L C (Hne C HC)) as [x Hx]. exists x. apply HF. split; [done|right]. intros HxX. apply Hn. by apply (Hsame C C0 x); [..|apply HXC]. }
  assert (∀ C D, C ∈ cs → D ∈ cs → F C = F D → C = D) as HFinj.
  { intros C D HC HD E. destruct (HFne C HC) as [x Hx]. pose proof Hx as Hx'. rewrite E in Hx'. apply HF in Hx as [Hx _], Hx' as [Hx' _]. by apply (Hsame C D x). }
  assert (∀ v, (v = c ∨ v ∈ X) → rtc (adj (eg_graph g)) c v) as Hconn.
  { intros v Hvx. apply (Hr c v Hc). exists C0. split_and!; [done|done|]. destruct Hvx as [->|Hvx]; [done|by apply HXC]. }
  assert (∀ x y, adj (eg_graph h) x y → rtc (adj (eg_graph g)) x y) as Hback.
  { assert (∀ y, adj (eg_graph h) c y → rtc (adj (eg_graph g)) c y) as Hcy.
    { intros y Hy. destruct (decide (y = c)) as [->|Hyc]; [done|]. apply H2 in Hy as (_ & v & Hvx & Hvy); [|done]. etransitivity; [by apply Hconn|]. by apply rtc_once. }
    intros x y Hxy. destruct (decide (x = c)) as [->|Hx]; [by apply Hcy|]. destruct (decide (y = c)) as [->|Hy].
    - apply (rtc_sym' _ _ _ Hwf), Hcy. by apply (wf_adj_sym _ Hhw).
    - apply H1 in Hxy as (_ & _ & Hxy); [|done|done]. by apply rtc_once. }
  assert (∀ x, (x = c ∨ x ∉ X) → goes c X x = x) as Hgoes.
  { intros x Hx. unfold goes. case_bool_decide; [|done]. by destruct Hx. }
  assert (∀ x y, (x = c ∨ x ∉ X) → (y = c ∨ y ∉ X) → rtc (adj (eg_graph h)) x y ↔ rtc (adj (eg_graph g)) x y) as Hrtc.
  { intros x y Hx Hy. split.
    - clear -Hback. induction 1 as [|x z y Hxz _ IH]; [done|]. etransitivity; [by apply Hback|done].
    - intros [n Hst]%rtc_nsteps. destruct (contract_steps g c X h n x y Rg Hc HX Eh Hst) as (m & _ & Hst'). rewrite !Hgoes in Hst' by done.
      apply rtc_nsteps. by exists m. }
  destruct (components_value (eg_graph h) (F <$> cs) Hhw) as (cs' & Ecs' & Hp).
  - apply NoDup_fmap_2_strong; [|done]. intros C D HC HD. by apply HFinj.
  - intros Y (C & -> & HC)%elem_of_list_fmap E. destruct (HFne C HC) as [x Hx]. rewrite E in Hx. by apply not_elem_of_empty in Hx.
  - intros Y u v (C & -> & HC)%elem_of_list_fmap [Hu Hu']%HF. rewrite HF. assert (vtx (eg_graph g) u) as Hug by (apply Hv; eauto).
    split.
    + intros [Hv1 Hv2]. apply Hrtc; [done|done|]. apply (Hr u v Hug). eauto.
    + intros Huv. assert (vtx (eg_graph h) v) as Hvh.
      { assert (vtx (eg_graph h) u) as Huh by (by apply HV). clear -Huv Hhw Huh. induction Huv as [|x z y Hxz _ IH]; [done|]. apply IH. apply (wf_adj_sym _ Hhw) in Hxz. by eapply (wf_adj_vtx _ Hhw). }
      apply HV in Hvh as [_ Hv']. split; [|done]. apply Hrtc in Huv; [|done|done]. apply (Hr u v Hug) in Huv as (D & HD & HuD & HvD). by rewrite (Hsame C D u).
  - intros v. change (vtx (eg_graph h) v) with (eg_contains h v = true). rewrite HV. split.
    + intros [Hvg Hv']. destruct (proj1 (Hv v) Hvg) as (C & HC & HvC). exists (F C). split; [by apply elem_of_list_fmap_1|]. by apply HF.
    + intros (Y & (C & -> & HC)%elem_of_list_fmap & [HvC Hv']%HF). split; [|done]. apply (proj2 (Hv v)). eauto.
  - exists h, cs'. split_and!; [done|done|exact Hp|]. by rewrite (Permutation_length Hp), fmap_length.
Qed.

(** [contract_pair] and [contract] are [contract_into]; contracting an edge keeps the number of components and removes one vertex. *)
Theorem C110_pair (g : editgraph) (u v : N) : eg_reachable g → eg_contains g u = true → eg_contains g v = true → u ≠ v →
  eg_contract_pair g u v = eg_contract_into g u [v] ∧
  (eg_adjacent g u v = true → ∃ h cs cs', eg_contract_pair g u v = Ok h ∧ components (eg_graph g) = Ok cs ∧ components (eg_graph h) = Ok cs' ∧
     cs' ≡ₚ ((λ C : gset N, C ∖ {[v]}) <$> cs) ∧ num_vertices (eg_graph g) = S (num_vertices (eg_graph h))).
Proof.
  intros Rg Hu Hv Huv. pose proof (C10_reachable_wf g Rg) as Hwf.
  destruct (C09_contract_pair_partial g u v Rg Hu Hv Huv) as (h & Eh & Rh & HV & H1 & H2 & H3).
  destruct (C09_contract_into g u [v] Rg Hu) as (k & Ek & Rk & KV & K1 & K2 & K3); [by intros x ->%elem_of_list_singleton|].
  assert (eg_contract_pair g u v = eg_contract_into g u [v]) as Heq.
  { rewrite Eh, Ek. f_equal. apply eg_wf_ext; [by apply eg_reachable_wf..| |].
    - intros x. unfold ev. rewrite HV, KV, elem_of_list_singleton. destruct (decide (x = v)); naive_solver.
    - assert (∀ y, y ≠ u → eg_adjacent h u y = true ↔ eg_adjacent k u y = true) as Huy.
      { intros y Hy. rewrite H2, K2, elem_of_list_singleton by done. split.
        - intros (? & [?|?]); (split; [done|]); [exists u; split; [by left|done]|exists v; split; [right; by apply elem_of_list_singleton|done]].
        - intros (? & z & [->|Hz] & ?); (split; [done|]); [by left|]. apply elem_of_list_singleton in Hz as ->. by right. }
      intros x y. unfold ea. destruct (decide (x = u)) as [->|Hx].
      + destruct (decide (y = u)) as [->|Hy]; [by rewrite H3, K3|by apply Huy].
      + destruct (decide (y = u)) as [->|Hy].
        * assert (∀ k : editgraph, eg_reachable k → eg_adjacent k x u = true ↔ eg_adjacent k u x = true) as Hs.
          { intros k0 Rk0. pose proof (C10_reachable_wf k0 Rk0) as Hk0. split; intros H; by apply (wf_adj_sym _ Hk0) in H. }
          rewrite (Hs h Rh), (Hs k Rk). by apply Huy.
        * by rewrite H1, K1, !elem_of_list_singleton. }
  split; [done|]. intros Hadj. destruct (C22_components (eg_graph g) Hwf) as (cs & Ecs & _ & _ & _ & _ & Hr).
  destruct (proj2 (Hr u v Hu)) as (C & HC & HuC & HvC); [by apply rtc_once|].
  destruct (C110_components g u [v] C cs Rg Ecs HC HuC) as (h' & cs' & Eh' & Ecs' & Hp & _); [by intros x ->%elem_of_list_singleton|].
  rewrite <- Heq, Eh in Eh'. injection Eh' as <-. exists h, cs, cs'. split_and!; [done|done|done| |].
  - rewrite Hp. erewrite list_fmap_ext; [done|]. intros i D _. apply set_eq. intros x. set_solver.
  - rewrite (wf_num_vertices _ Hwf), (wf_num_vertices _ (C10_reachable_wf h Rh)). change (S (length (vertices (eg_graph h)))) with (length (v :: vertices (eg_graph h))).
    apply same_length; [apply (wf_vertices_nodup _ Hwf)| |].
    + apply NoDup_cons. split; [|apply (wf_vertices_nodup _ (C10_reachable_wf h Rh))]. intros Hx%(wf_vertices _ (C10_reachable_wf h Rh)). apply HV in Hx as [_ ?]. done.
    + intros x. rewrite elem_of_cons, (wf_vertices _ Hwf), (wf_vertices _ (C10_reachable_wf h Rh)). change (vtx (eg_graph h) x) with (eg_contains h x = true). rewrite HV.
      change (vtx (eg_graph g) x) with (eg_contains g x = true). destruct (decide (x = v)) as [->|?]; [tauto|]. tauto.
Qed.
End contraction.

(** ** A case meeting the hypotheses: two paths; in one, the middle is contracted into an end *)
Local Existing Instance std_iter.
Definition C110_g : editgraph := ex_edit [(0, 1); (1, 2); (2, 3); (3, 4); (7, 8)]%N.
Lemma ex_C110_hyp : eg_reachable C110_g ∧ (∃ cs C, components (eg_graph C110_g) = Ok cs ∧ C ∈ cs ∧ (∀ v, v ∈ [0; 1; 2]%N → v ∈ C)) ∧ eg_adjacent C110_g 1 2 = true.
Proof.
  assert (eg_reachable C110_g) as Rg.
  { destruct (C01_editgraph_refines (ex_ops_of [(0, 1); (1, 2); (2, 3); (3, 4); (7, 8)]%N)) as (h & Hh & _). unfold C110_g, ex_edit. rewrite Hh. do 2 eexists. exact Hh. }
  split; [exact Rg|]. split; [|vm_compute; reflexivity].
  destruct (C22_components (eg_graph C110_g) (C10_reachable_wf _ Rg)) as (cs & Ecs & _ & _ & Hdj & Hv & Hr).
  assert (vtx (eg_graph C110_g) 0%N) as H0 by (vm_compute; reflexivity). destruct (proj1 (Hv 0%N) H0) as (C & HC & H0C). exists cs, C. split_and!; [done|done|].
  assert (∀ v, rtc (adj (eg_graph C110_g)) 0%N v → v ∈ C) as Hin.
  { intros v (D & HD & H0D & HvD)%(Hr _ _ H0). destruct (decide (C = D)) as [->|Hn]; [done|]. exfalso. exact (Hdj C D HC HD Hn _ H0C H0D). }
  intros v Hvl. apply Hin. assert (adj (eg_graph C110_g) 0%N 1%N) by (vm_compute; reflexivity). assert (adj (eg_graph C110_g) 1%N 2%N) by (vm_compute; reflexivity).
  rewrite !elem_of_cons, elem_of_nil in Hvl. destruct Hvl as [->|[->|[->|[]]]]; [done|by apply rtc_once|by eapply rtc_l; [|apply rtc_once]].
Qed.
Example ex_C110 : (h ← eg_contract_into C110_g 0 [1; 2]%N; cs ← components (eg_graph C110_g); cs' ← components (eg_graph h); A ← r_neighbours (eg_graph C110_g) 0 2;
    B ← r_neighbours (eg_graph h) 0 2; Ok (length cs, length cs', bool_decide (A = {[0; 1; 2]}%N), bool_decide (B = {[0; 3; 4]}%N))) = Ok (2, 2, true, true).
Proof. vm_compute. reflexivity. Qed.

Print Assumptions C110_balls.
Print Assumptions C110_components.
Print Assumptions C110_pair.
